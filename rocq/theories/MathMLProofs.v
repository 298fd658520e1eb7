(** Facts about the MathML serializer. *)
From Coq Require Import String Ascii Bool Arith Lia.
From Coq Require Import List.
From Verif Require Import Base Num Expr SpecMarkup MathMLSer.
Import ListNotations.
Open Scope list_scope.

Section MathML.
  Context {num : Type} {NO : NumOps num}.
  Notation expr := (expr num).
  Variable fmt5 fmt17 : num -> string.
  Notation mathml := (mathml fmt5 fmt17).

  (** The operands of a sum or product, with their elements. *)
  Definition pairs (l : list expr) : list (expr * xml) := map (fun e => (e, mathml e)) l.
  Lemma mathml_add a b : mathml (EAdd a b) = mrow (sum_children (map mathml (flatten OAdd a b))).
  Proof.
    cbn [MathMLSer.mathml]. unfold flatten. rewrite map_app.
    set (items := fix items (e : expr) : list xml := match e with EBin OAdd a b => items a ++ items b | _ => [mathml e] end).
    assert (H : forall e, items e = map mathml (flat OAdd e)).
    { induction e as [| | | | | | |o p IHp q IHq|o p IHp]; try reflexivity.
      destruct o; try reflexivity. cbn [flat binop_eqb]. rewrite map_app, <- IHp, <- IHq. reflexivity. }
    now rewrite !H.
  Qed.
  Lemma mathml_mul a b : mathml (EMul a b) = mrow (product_children false (pairs (flatten OMul a b))).
  Proof.
    cbn [MathMLSer.mathml]. unfold flatten, pairs. rewrite map_app.
    set (items := fix items (e : expr) : list (expr * xml) := match e with EBin OMul a b => items a ++ items b | _ => [(e, mathml e)] end).
    assert (H : forall e, items e = map (fun e => (e, mathml e)) (flat OMul e)).
    { induction e as [| | | | | | |o p IHp q IHq|o p IHp]; try reflexivity.
      destruct o; try reflexivity. cbn [flat binop_eqb]. rewrite map_app, <- IHp, <- IHq. reflexivity. }
    now rewrite !H.
  Qed.
  Lemma mathml_bin o a b : o <> OAdd -> o <> OMul -> mathml (EBin o a b) = bin_xml o a b (mathml a) (mathml b).
  Proof. destruct o; congruence || reflexivity. Qed.

  Lemma flat_length o (e : expr) : 1 <= length (flat o e).
  Proof.
    induction e as [| | | | | | |o' p IHp q IHq|o' p IHp]; cbn; try lia.
    destruct (binop_eqb o o'); cbn; [rewrite app_length|]; lia.
  Qed.

  (** ** Every variable occurs *)

  Lemma inside_row y x l : In x l -> inside y x -> inside y (mrow l).
  Proof. apply in_child. Qed.
  Lemma in_sum x l : In x l -> In x (sum_children l).
  Proof.
    induction l as [|y l IH]; [auto|]. cbn [sum_children]. destruct l as [|z l].
    - auto.
    - intros [->|H]; [now left|]. right. right. auto.
  Qed.
  Lemma in_product (e : expr) x l : In (e, x) l -> forall p, In x (product_children p l).
  Proof.
    induction l as [|[e' x'] l IH]; [auto|]. intros H p. cbn [product_children]. rewrite !in_app_iff.
    destruct H as [E|H].
    - injection E as -> ->. right. left. unfold factor. destruct (bare e); cbn; auto.
    - right. right. auto.
  Qed.

  Lemma occurs_flat x o (e : expr) : occurs x e -> exists f, In f (flat o e) /\ occurs x f.
  Proof.
    induction e as [| | | | | | |o' p IHp q IHq|o' p IHp]; try (intros H; eexists; split; [now left|exact H]).
    intros H. cbn [flat]. destruct (binop_eqb o o').
    - destruct H as [H|H]; [destruct (IHp H) as (f & H1 & H2)|destruct (IHq H) as (f & H1 & H2)];
        exists f; rewrite in_app_iff; auto.
    - eexists. split; [now left|exact H].
  Qed.
  Fixpoint size (e : expr) : nat :=
    match e with EBin _ a b => S (size a + size b) | EUn _ a => S (size a) | _ => 1 end.
  Lemma flat_size o (e f : expr) : In f (flat o e) -> size f <= size e.
  Proof.
    induction e as [| | | | | | |o' p IHp q IHq|o' p IHp]; try (intros [<-|[]]; auto; fail).
    cbn [flat]. destruct (binop_eqb o o'); [|intros [<-|[]]; auto].
    rewrite in_app_iff. cbn. intros [H|H]; [specialize (IHp H)|specialize (IHq H)]; lia.
  Qed.
  Lemma flatten_size o a b (f : expr) : In f (flatten o a b) -> size f < size (EBin o a b).
  Proof. unfold flatten. rewrite in_app_iff. cbn. intros [H|H]; apply flat_size in H; lia. Qed.
  Lemma sine_free_flat o (e : expr) : sine_free e -> forall f, In f (flat o e) -> sine_free f.
  Proof.
    induction e as [| | | | | | |o' p IHp q IHq|o' p IHp]; intros H f Hf; try (destruct Hf as [<-|[]]; exact H).
    cbn [flat] in Hf. destruct (binop_eqb o o'); [|destruct Hf as [<-|[]]; exact H].
    destruct H. apply in_app_iff in Hf. destruct Hf; auto.
  Qed.

  Lemma occurs_mathml x : forall n (e : expr), size e <= n -> sine_free e -> occurs x e -> inside (mi x) (mathml e).
  Proof.
    induction n as [|n IH]; intros e Hs Hf Ho; [destruct e; cbn in Hs; lia|].
    destruct e as [c| |y| | | |r c d|o a b|o a]; try contradiction.
    - cbn in Ho. subst. constructor.
    - assert (Sub : exists f, In f (flatten o a b) /\ inside (mi x) (mathml f)).
      {        assert (H : exists f, In f (flatten o a b) /\ occurs x f).
        { unfold flatten. destruct Ho as [H|H]; apply (occurs_flat x o) in H; destruct H as (f & H1 & H2); exists f; rewrite in_app_iff; auto. }
        destruct H as (f & H1 & H2). exists f. split; [exact H1|]. apply IH.
        + apply flatten_size in H1. lia.
        + destruct Hf as [Ha Hb]. unfold flatten in H1. apply in_app_iff in H1. destruct H1 as [H1|H1]; [exact (sine_free_flat o a Ha f H1)|exact (sine_free_flat o b Hb f H1)].
        + exact H2. }
      destruct Hf as [Ha Hb]. cbn in Hs.
      assert (Iab : inside (mi x) (mathml a) \/ inside (mi x) (mathml b)).
      { destruct Ho as [H|H]; [left|right]; apply IH; auto; lia. }
      destruct o.
      + rewrite mathml_add. destruct Sub as (f & H1 & H2).
        eapply inside_row; [apply in_sum, in_map; exact H1|exact H2].
      + rewrite mathml_bin by discriminate. cbn [bin_xml].
        destruct Iab as [H|H]; (eapply inside_row; [|exact H]); destruct (match b with EReal _ => _ | _ => _ end); cbn; auto.
      + rewrite mathml_mul. destruct Sub as (f & H1 & H2).
        eapply inside_row; [|exact H2]. apply (in_product f). apply (in_map (fun e => (e, mathml e)) _ _ H1).
      + rewrite mathml_bin by discriminate. cbn [bin_xml].
        destruct Iab as [H|H]; (eapply in_child; [|exact H]); cbn; auto.
      + rewrite mathml_bin by discriminate. cbn [bin_xml]. destruct Iab as [H|H].
        * eapply in_child; [now left|]. destruct (match a with EReal _ => _ | _ => _ end); [exact H|].
          eapply inside_row; [|exact H]. cbn. auto.
        * eapply in_child; [|exact H]. cbn. auto.
      + rewrite mathml_bin by discriminate. cbn [bin_xml]. destruct Iab as [H|H].
        * eapply inside_row; [now left|]. eapply in_child; [|exact H]. cbn. auto.
        * eapply inside_row; [|exact H]. cbn. auto.
      + rewrite mathml_bin by discriminate. cbn [bin_xml]. destruct Iab as [H|H].
        * eapply inside_row; [|exact H]. cbn. auto.
        * eapply inside_row; [now left|]. eapply in_child; [right; left; reflexivity|]. eapply inside_row; [|exact H]. cbn. auto.
      + rewrite mathml_bin by discriminate. cbn [bin_xml]. destruct Iab as [H|H].
        * eapply inside_row; [|exact H]. cbn. auto.
        * eapply inside_row; [right; right; left; reflexivity|]. eapply inside_row; [|exact H]. cbn. auto.
    - destruct Hf as [Hso Hf]. cbn in Hs, Ho. assert (H : inside (mi x) (mathml a)) by (apply IH; auto; lia).
      destruct o; [| congruence |]; (eapply inside_row; [|exact H]); cbn; auto.
  Qed.

  (** ** Well-formedness *)

  Ltac fa := repeat (apply List.Forall_cons || apply List.Forall_nil || assumption || match goal with H : forall t, mathml_ok (mo t) |- _ => apply H end).
  Lemma mathml_valid : forall n (e : expr), size e <= n -> mathml_ok (mathml e).
  Proof.
    assert (Mo : forall t, mathml_ok (mo t)) by (intros; constructor; cbn; auto).
    assert (Mi : forall t, mathml_ok (mi t)) by (intros; constructor; cbn; auto).
    assert (Mn : forall t, mathml_ok (mn t)) by (intros; constructor; cbn; auto).
    assert (Row : forall l, List.Forall mathml_ok l -> mathml_ok (mrow l)) by (intros l H; apply mo_row; now apply Forall_forall).
    induction n as [|n IH]; intros e Hs; [destruct e; cbn in Hs; lia|].
    destruct e as [c| |y| | | |r c d|o a b|o a].
    - apply Mn.
    - apply Mi.
    - apply Mi.
    - constructor. cbn. auto.
    - apply Mi.
    - apply Mi.
    - apply Row. constructor; [apply Mo|]. constructor; [|constructor; [apply Mo|constructor]].
      apply mo_table. clear Hs. revert d. induction r as [|r IHr]; intros d rr Hr; [destruct Hr|]. destruct Hr as [<-|Hr]; [|eauto].
      eexists. split; [reflexivity|]. intros cc Hc. apply in_map_iff in Hc. destruct Hc as (v & <- & _).
      eexists. split; [reflexivity|apply Mn].
    - assert (Ia : mathml_ok (mathml a)) by (apply IH; cbn in Hs; lia).
      assert (Ib : mathml_ok (mathml b)) by (apply IH; cbn in Hs; lia).
      assert (Sub : forall f, In f (flatten o a b) -> mathml_ok (mathml f)).
      { intros f H. apply IH. apply flatten_size in H. lia. }
      destruct o; try (rewrite mathml_bin by discriminate; cbn [bin_xml]).
      + rewrite mathml_add. apply Row. induction (flatten OAdd a b) as [|f l IHl]; [constructor|].
        cbn [map sum_children]. destruct l as [|g l].
        * constructor; [apply Sub; now left|constructor].
        * constructor; [apply Sub; now left|]. constructor; [apply Mo|]. apply IHl. intros h Hh. apply Sub. now right.
      + apply Row. constructor; [exact Ia|]. constructor; [apply Mo|].
        destruct (match b with EReal _ => _ | _ => _ end); fa.
      + rewrite mathml_mul. apply Row. generalize false. induction (flatten OMul a b) as [|f l IHl]; intros p; [constructor|].
        cbn [pairs map product_children]. rewrite !Forall_app. split; [|split].
        * destruct (p && is_real f); fa.
        * unfold factor. destruct (bare f); fa; apply Sub; now left.
        * apply IHl. intros h Hh. apply Sub. now right.
      + constructor; cbn; auto.
      + constructor; cbn; auto. destruct (match a with EReal _ => _ | _ => _ end); [exact Ia|]. apply Row. fa.
      + apply Row. constructor; [constructor; cbn; auto|]. fa.
      + apply Row. constructor; [constructor; cbn; auto; apply Row; fa|]. fa.
      + apply Row. constructor; [apply Mo|]. constructor; [exact Ia|]. constructor; [|constructor]. apply Row. fa.
    - assert (Ia : mathml_ok (mathml a)) by (apply IH; cbn in Hs; lia).
      destruct o; apply Row; fa.
  Qed.

  (** ** Numerals side by side *)

  Definition head_ok (l : list xml) : Prop :=
    match l with
    | b :: _ => begins_with_numeral b = true -> exists c p, b = XNode "msup" [XText "mn" c; p]
    | [] => True
    end.
  Fixpoint row_ok (l : list xml) : Prop :=
    match l with
    | x :: l => (forall t, x = XText "mn" t -> head_ok l) /\ row_ok l
    | [] => True
    end.
  Lemma row_ok_touch l : row_ok l -> forall l1 a b l2, l = (l1 ++ XText "mn" a :: b :: l2)%list ->
    begins_with_numeral b = true -> exists c p, b = XNode "msup" [XText "mn" c; p].
  Proof.
    intros H l1. revert l H. induction l1 as [|x l1 IH]; intros l H a b l2 -> Hb.
    - cbn in H. exact (proj1 H a eq_refl Hb).
    - cbn in H. exact (IH _ (proj2 H) a b l2 eq_refl Hb).
  Qed.
  Definition rows_ok (x : xml) : Prop := forall l, inside (XNode "mrow" l) x -> row_ok l.
  Lemma rows_text t u : rows_ok (XText t u).
  Proof. intros l H. inversion H. Qed.
  Lemma rows_node t l : (t = "mrow" -> row_ok l) -> Forall rows_ok l -> rows_ok (XNode t l).
  Proof.
    intros Hr Hl k Hk. inversion Hk; subst; [now apply Hr|]. rewrite Forall_forall in Hl. eapply Hl; eassumption.
  Qed.
  Lemma mn_is_real e t : mathml e = XText "mn" t -> is_real e = true.
  Proof.
    destruct e as [c| |y| | | |r c d|o a b|o a]; try reflexivity; try discriminate.
    - destruct o; rewrite ?mathml_add, ?mathml_mul, ?mathml_bin by discriminate; discriminate.
    - destruct o; discriminate.
  Qed.
  Lemma bare_head e r : is_real e = false -> bare e = true -> head_ok (mathml e :: r).
  Proof.
    destruct e as [c| |y| | | |r' c d|o a b|o a]; try discriminate. destruct o; try discriminate; intros _ _.
    cbn [head_ok]. rewrite mathml_bin by discriminate. cbn [bin_xml begins_with_numeral].
    destruct a; cbn; discriminate || eauto.
  Qed.
  Lemma product_rows l : forall p, row_ok (product_children p (pairs l)) /\ (p = true -> head_ok (product_children p (pairs l))).
  Proof.
    induction l as [|e l IH]; intros p; [split; cbn; auto|].
    cbn [pairs map product_children]. fold (pairs l). destruct (IH (is_real e)) as [R H].
    assert (F : row_ok (factor e (mathml e) ++ product_children (is_real e) (pairs l)) /\
                (is_real e = false -> head_ok (factor e (mathml e) ++ product_children (is_real e) (pairs l)))).
    { unfold factor. destruct (bare e) eqn:B; cbn [app].
      - split; [|intros Hr; now apply bare_head]. cbn [row_ok]. split; [|exact R]. intros t Ht. apply H. eauto using mn_is_real.
      - split; [|discriminate]. cbn [row_ok]. repeat split; try discriminate; auto. }
    destruct F as [F1 F2]. destruct p; cbn [andb]; [|split; [exact F1|discriminate]].
    destruct (is_real e); cbn [app].
    - split; [|discriminate]. cbn [row_ok]. split; [discriminate|exact F1].
    - split; auto.
  Qed.
  Lemma sum_rows l : row_ok (sum_children l).
  Proof.
    induction l as [|x l IH]; [exact I|]. cbn [sum_children]. destruct l; [cbn; auto|].
    cbn [row_ok]. repeat split; try discriminate. exact IH.
  Qed.
  Ltac rows := repeat (apply Forall_nil || apply Forall_cons); try assumption; try apply rows_text.
  Ltac flatrow := intros _; cbn [row_ok head_ok]; repeat split; try discriminate; auto.
  Lemma mathml_rows : forall n (e : expr), size e <= n -> rows_ok (mathml e).
  Proof.
    induction n as [|n IH]; intros e Hs; [destruct e; cbn in Hs; lia|].
    destruct e as [c| |y| | | |r c d|o a b|o a]; try apply rows_text.
    - apply rows_node; [flatrow|]. rows. apply rows_node; [discriminate|]. rewrite Forall_forall. clear Hs. revert d.
      induction r as [|r IHr]; intros d x Hx; [destruct Hx|]. destruct Hx as [<-|Hx]; [|eauto].
      apply rows_node; [discriminate|]. rewrite Forall_forall. intros z Hz. apply in_map_iff in Hz. destruct Hz as (v & <- & _).
      apply rows_node; [discriminate|]. rows.
    - assert (Ia : rows_ok (mathml a)) by (apply IH; cbn in Hs; lia).
      assert (Ib : rows_ok (mathml b)) by (apply IH; cbn in Hs; lia).
      assert (Sub : forall f, In f (flatten o a b) -> rows_ok (mathml f)).
      { intros f H. apply IH. apply flatten_size in H. lia. }
      destruct o; try (rewrite mathml_bin by discriminate; cbn [bin_xml]).
      + rewrite mathml_add. apply rows_node; [intros _; apply sum_rows|].
        induction (flatten OAdd a b) as [|f l IHl]; [constructor|].
        cbn [map sum_children]. destruct l as [|g l].
        * constructor; [apply Sub; now left|constructor].
        * constructor; [apply Sub; now left|]. constructor; [apply rows_text|]. apply IHl. intros h Hh. apply Sub. now right.
      + destruct (match b with EReal _ => _ | _ => _ end); cbn [app]; (apply rows_node; [flatrow|rows]).
      + rewrite mathml_mul. apply rows_node; [intros _; apply product_rows|].
        generalize false. induction (flatten OMul a b) as [|f l IHl]; intros p; [constructor|].
        cbn [pairs map product_children]. rewrite !Forall_app. split; [|split].
        * destruct (p && is_real f); rows.
        * unfold factor. destruct (bare f); rows; apply Sub; now left.
        * apply IHl. intros h Hh. apply Sub. now right.
      + apply rows_node; [discriminate|rows].
      + apply rows_node; [discriminate|]. destruct (match a with EReal _ => _ | _ => _ end); rows.
        apply rows_node; [flatrow|rows].
      + apply rows_node; [flatrow|]. rows. apply rows_node; [discriminate|rows].
      + apply rows_node; [flatrow|]. rows. apply rows_node; [discriminate|]. rows. apply rows_node; [flatrow|rows].
      + apply rows_node; [flatrow|]. rows. apply rows_node; [flatrow|rows].
    - assert (Ia : rows_ok (mathml a)) by (apply IH; cbn in Hs; lia).
      destruct o; (apply rows_node; [flatrow|rows]).
  Qed.

  (** ** Regrouping *)

  (** The top of an expression: what a parent looks at. *)
  Inductive top := TopLeaf (e : expr) | TopBin (o : binop) | TopUn (o : unop).
  Definition top_of (e : expr) : top :=
    match e with EBin o _ _ => TopBin o | EUn o _ => TopUn o | _ => TopLeaf e end.
  Definition same (e f : expr) : Prop := mathml e = mathml f /\ top_of e = top_of f.
  Lemma same_real e f : same e f -> is_real e = is_real f.
  Proof. intros [_ H]. destruct e, f; cbn in H; congruence || (injection H; intros; subst; reflexivity) || reflexivity. Qed.
  Lemma same_bare e f : same e f -> bare e = bare f.
  Proof. intros [_ H]. destruct e, f; cbn in H; try discriminate; try reflexivity; injection H as ->; reflexivity. Qed.
  Lemma product_same l l' : Forall2 same l l' -> forall p, product_children p (pairs l) = product_children p (pairs l').
  Proof.
    induction 1 as [|e f l l' H _ IH]; intros p; [reflexivity|]. cbn [pairs map product_children].
    fold (pairs l) (pairs l'). rewrite (same_real _ _ H), IH. f_equal. unfold factor. rewrite (same_bare _ _ H).
    now rewrite (proj1 H).
  Qed.
  Lemma sum_same l l' : Forall2 same l l' -> map mathml l = map mathml l'.
  Proof. induction 1 as [|e f l l' H _ IH]; cbn; [reflexivity|]. now rewrite IH, (proj1 H). Qed.
  Lemma same_refl e : same e e.
  Proof. now split. Qed.
  Lemma Forall2_same_refl l : Forall2 same l l.
  Proof. induction l; constructor; auto using same_refl. Qed.

  Lemma regroup_same e f : regroup e f -> same e f /\ forall o, Forall2 same (flat o e) (flat o f).
  Proof.
    induction 1 as [e|e f _ [IH1 IH2]|e f g _ [IH1 IH2] _ [IH3 IH4]|o a a' b b' _ [IHa IHa'] _ [IHb IHb']|o a a' _ [IHa _]|a b c|a b c].
    - split; [apply same_refl|intros; apply Forall2_same_refl].
    - split; [destruct IH1; now split|]. intros o. specialize (IH2 o). induction IH2 as [|? ? ? ? [? ?]]; constructor; auto. now split.
    - split; [destruct IH1, IH3; split; congruence|]. intros o. specialize (IH2 o). specialize (IH4 o).
      revert IH4. generalize (flat o g). induction IH2 as [|x y l l' Hxy _ IH]; intros k Hk; inversion Hk; subst; constructor; auto.
      destruct Hxy, H1. split; congruence.
    - assert (Hm : mathml (EBin o a b) = mathml (EBin o a' b')).
      { destruct o.
        - rewrite !mathml_add. f_equal. f_equal. apply sum_same. apply Forall2_app; auto.
        - rewrite !mathml_bin by discriminate. destruct IHa as [-> _], IHb as [-> Ht]. cbn [bin_xml].
          destruct b, b'; cbn in Ht; try discriminate; try reflexivity. now injection Ht as ->.
        - rewrite !mathml_mul. f_equal. apply product_same. apply Forall2_app; auto.
        - rewrite !mathml_bin by discriminate. destruct IHa as [-> _], IHb as [-> _]. reflexivity.
        - rewrite !mathml_bin by discriminate. destruct IHa as [-> Ht], IHb as [-> _]. cbn [bin_xml].
          destruct a, a'; cbn in Ht; try discriminate; reflexivity.
        - rewrite !mathml_bin by discriminate. destruct IHa as [-> _], IHb as [-> _]. reflexivity.
        - rewrite !mathml_bin by discriminate. destruct IHa as [-> _], IHb as [-> _]. reflexivity.
        - rewrite !mathml_bin by discriminate. destruct IHa as [-> _], IHb as [-> _]. reflexivity. }
      split; [now split|]. intros o'. cbn [flat]. destruct (binop_eqb o' o); [apply Forall2_app; auto|].
      constructor; [now split|constructor].
    - assert (Hm : mathml (EUn o a) = mathml (EUn o a')) by (destruct IHa as [E _]; destruct o; cbn [MathMLSer.mathml]; rewrite ?E; reflexivity).
      split; [now split|]. intros o'. constructor; [now split|constructor].
    - assert (Hm : mathml (EAdd (EAdd a b) c) = mathml (EAdd a (EAdd b c))).
      { rewrite !mathml_add. unfold flatten. cbn [flat binop_eqb]. now rewrite app_assoc. }
      split; [now split|]. intros o'. cbn [flat]. destruct (binop_eqb o' OAdd); [|constructor; [now split|constructor]].
      rewrite app_assoc. apply Forall2_same_refl.
    - assert (Hm : mathml (EMul (EMul a b) c) = mathml (EMul a (EMul b c))).
      { rewrite !mathml_mul. unfold flatten. cbn [flat binop_eqb]. now rewrite app_assoc. }
      split; [now split|]. intros o'. cbn [flat]. destruct (binop_eqb o' OMul); [|constructor; [now split|constructor]].
      rewrite app_assoc. apply Forall2_same_refl.
  Qed.

  (** Right-nested form. *)
  Fixpoint nested (o : binop) (l : list expr) : expr :=
    match l with [] => EUndef | [e] => e | e :: l => EBin o e (nested o l) end.
  Definition grouping (o : binop) : Prop := o = OAdd \/ o = OMul.
  Lemma rg_assoc o (a b c : expr) : grouping o -> regroup (EBin o (EBin o a b) c) (EBin o a (EBin o b c)).
  Proof. intros [->| ->]; [apply rg_add|apply rg_mul]. Qed.
  Lemma nested_cons o (e : expr) l : l <> [] -> nested o (e :: l) = EBin o e (nested o l).
  Proof. now destruct l. Qed.
  Lemma nested_app o (l l' : list expr) : grouping o -> l <> [] -> l' <> [] -> regroup (nested o (l ++ l')) (EBin o (nested o l) (nested o l')).
  Proof.
    intros Ho Hl Hl'. induction l as [|e l IH]; [congruence|]. destruct l as [|f l].
    - change ([e] ++ l') with (e :: l'). rewrite nested_cons by exact Hl'. apply rg_refl.
    - change ((e :: f :: l) ++ l') with (e :: ((f :: l) ++ l')). rewrite (nested_cons o e ((f :: l) ++ l')) by discriminate.
      rewrite (nested_cons o e (f :: l)) by discriminate.
      eapply rg_trans; [apply rg_bin; [apply rg_refl|apply IH; discriminate]|]. apply rg_sym, rg_assoc, Ho.
  Qed.
  Lemma flat_nonempty o (e : expr) : flat o e <> [].
  Proof. intros H. assert (L := flat_length o e). rewrite H in L. cbn in L. lia. Qed.
  Lemma flat_nested o : grouping o -> forall e : expr, regroup e (nested o (flat o e)).
  Proof.
    intros Ho. induction e as [| | | | | | |o' p IHp q IHq|o' p IHp]; try apply rg_refl.
    cbn [flat]. destruct (binop_eqb o o') eqn:E; [|apply rg_refl].
    assert (o' = o) by (destruct o, o'; cbn in E; congruence). subst o'.
    eapply rg_trans; [apply rg_bin; [exact IHp|exact IHq]|]. apply rg_sym, nested_app; auto using flat_nonempty.
  Qed.
  Lemma nested_regroup o (l l' : list expr) : Forall2 regroup l l' -> regroup (nested o l) (nested o l').
  Proof.
    induction 1 as [|e f l l' H H2 IH]; [apply rg_refl|]. destruct H2.
    - exact H.
    - cbn [nested] in *. apply rg_bin; [exact H|exact IH].
  Qed.
  Lemma flat_regroup o (a b a' b' : expr) : grouping o -> Forall2 regroup (flatten o a b) (flatten o a' b') -> regroup (EBin o a b) (EBin o a' b').
  Proof.
    intros Ho H. assert (E : binop_eqb o o = true) by now destruct o.
    assert (N := fun p q : expr => flat_nested o Ho (EBin o p q)). cbn [flat] in N. rewrite E in N.
    eapply rg_trans; [apply N|]. eapply rg_trans; [apply (nested_regroup o _ _ H)|]. apply rg_sym, N.
  Qed.

  (** What kind of expression an element stands for. *)
  Definition expr_like (x : xml) : bool :=
    match x with
    | XText t _ => String.eqb t "mn" || String.eqb t "mi" || String.eqb t "mtext"
    | XNode t (XText u _ :: _) => String.eqb t "mrow" || (String.eqb t "mfrac" || String.eqb t "msup") && negb (String.eqb u "mo")
    | XNode t _ => String.eqb t "mrow" || String.eqb t "mfrac" || String.eqb t "msup"
    end.
  Lemma mathml_like e : expr_like (mathml e) = true.
  Proof.
    induction e as [c| |y| | | |r c d|o a IHa b IHb|o a IHa]; try reflexivity.
    - destruct o; try reflexivity.
      + rewrite mathml_add. unfold mrow, expr_like. destruct (sum_children _) as [|[] ?]; reflexivity.
      + rewrite mathml_bin by discriminate. cbn. destruct (mathml a); reflexivity.
      + rewrite mathml_mul. unfold mrow, expr_like. destruct (product_children _ _) as [|[] ?]; reflexivity.
      + rewrite mathml_bin by discriminate. cbn [bin_xml]. destruct (mathml a) as [t u|t l]; [|reflexivity].
        cbn [expr_like] in *. destruct (String.eqb t "mo") eqn:E; [|reflexivity]. apply String.eqb_eq in E. subst. discriminate.
      + rewrite mathml_bin by discriminate. cbn [bin_xml].
        destruct (match a with EReal _ => _ | _ => _ end); [|reflexivity]. destruct (mathml a) as [t u|t l]; [|reflexivity].
        cbn [expr_like] in *. destruct (String.eqb t "mo") eqn:E; [|reflexivity]. apply String.eqb_eq in E. subst. discriminate.
    - destruct o; reflexivity.
  Qed.
  Lemma like_mo e t : mathml e <> mo t.
  Proof. intros H. assert (L := mathml_like e). rewrite H in L. discriminate. Qed.
  Lemma like_msub e l : mathml e <> XNode "msub" l.
  Proof. intros H. assert (L := mathml_like e). rewrite H in L. destruct l as [|[]]; discriminate. Qed.
  Lemma like_mfrac e t l : mathml e <> XNode "mfrac" (mo t :: l).
  Proof. intros H. assert (L := mathml_like e). rewrite H in L. discriminate. Qed.
  Lemma mn_real e t : mathml e = mn t -> is_real e = true.
  Proof.
    destruct e as [c| |y| | | |r c d|o a b|o a]; try reflexivity; try discriminate.
    - destruct o; rewrite ?mathml_add, ?mathml_mul, ?mathml_bin by discriminate; discriminate.
    - destruct o; discriminate.
  Qed.
  Lemma eq_real e f : mathml e = mathml f -> is_real e = is_real f.
  Proof.
    intros H. destruct (is_real e) eqn:E1, (is_real f) eqn:E2; try reflexivity.
    - destruct e; try discriminate. symmetry in H. apply mn_real in H. congruence.
    - destruct f; try discriminate. apply mn_real in H. congruence.
  Qed.
  Lemma real_bare (e : expr) : is_real e = true -> bare e = true.
  Proof. destruct e; try discriminate; reflexivity. Qed.

  Lemma product_decode (l : list expr) : forall p l', product_children p (pairs l) = product_children p (pairs l') ->
    Forall2 (fun e f => mathml e = mathml f) l l'.
  Proof.
    induction l as [|e l IH]; intros p [|f l'] H.
    - constructor.
    - exfalso. cbn in H. destruct (p && is_real f); [discriminate|]. unfold factor in H. destruct (bare f); discriminate.
    - exfalso. cbn in H. destruct (p && is_real e); [discriminate|]. unfold factor in H. destruct (bare e); discriminate.
    - cbn [pairs map product_children] in H. fold (pairs l) in H. fold (pairs l') in H.
      assert (Fin : mathml e = mathml f -> product_children (is_real e) (pairs l) = product_children (is_real f) (pairs l') ->
                    Forall2 (fun e f => mathml e = mathml f) (e :: l) (f :: l')).
      { intros E1 E2. constructor; [exact E1|]. rewrite (eq_real _ _ E1) in E2. eauto. }
      unfold factor in H.
      destruct (p && is_real e) eqn:Pe, (p && is_real f) eqn:Pf.
      + apply andb_true_iff in Pe, Pf. rewrite !real_bare in H by tauto. injection H as H1 H2. auto.
      + apply andb_true_iff in Pe. rewrite (real_bare e) in H by tauto. exfalso. destruct (bare f); cbn [app] in H.
        * injection H as H _. symmetry in H. now apply like_mo in H.
        * discriminate.
      + apply andb_true_iff in Pf. rewrite (real_bare f) in H by tauto. exfalso. destruct (bare e); cbn [app] in H.
        * injection H as H _. now apply like_mo in H.
        * discriminate.
      + destruct (bare e), (bare f); cbn [app] in H.
        * injection H as H1 H2. auto.
        * exfalso. injection H as H1 H2. now apply like_mo in H1.
        * exfalso. injection H as H1 H2. symmetry in H1. now apply like_mo in H1.
        * injection H as H1 H2. auto.
  Qed.
  Lemma sum_decode l : forall l', sum_children l = sum_children l' -> l = l'.
  Proof.
    induction l as [|x l IH]; intros [|y l'] H; cbn [sum_children] in H.
    - reflexivity.
    - destruct l'; discriminate.
    - destruct l; discriminate.
    - destruct l as [|x' l], l' as [|y' l'].
      + now injection H as ->.
      + discriminate.
      + discriminate.
      + injection H as -> H. f_equal. now apply IH.
  Qed.

  Lemma flatten_two o (a b : expr) : exists e f l, flatten o a b = e :: f :: l.
  Proof.
    unfold flatten. assert (H := flat_nonempty o b). destruct (flat o a) as [|e [|f l]] eqn:E.
    - now apply flat_nonempty in E.
    - destruct (flat o b) as [|f l]; [congruence|]. cbn. eauto.
    - cbn. eauto.
  Qed.
  Lemma add_shape a b : exists f r, mathml (EAdd a b) = mrow (mathml f :: mo "+" :: r).
  Proof.
    rewrite mathml_add. destruct (flatten_two OAdd a b) as (e & f & l & ->). cbn [map sum_children]. eauto.
  Qed.
  Inductive mul_children : list xml -> Prop :=
  | mc_paren r : mul_children (mo "(" :: r)
  | mc_next f g r : mul_children (mathml f :: mathml g :: r)
  | mc_times f r : mul_children (mathml f :: mo times :: r)
  | mc_open f r : mul_children (mathml f :: mo "(" :: r).
  Lemma mul_shape a b : exists l, mathml (EMul a b) = mrow l /\ mul_children l.
  Proof.
    rewrite mathml_mul. eexists. split; [reflexivity|]. destruct (flatten_two OMul a b) as (e & f & l & ->).
    cbn [pairs map product_children andb app]. unfold factor. destruct (bare e); [|constructor].
    destruct (is_real e && is_real f); cbn [app]; [constructor|]. destruct (bare f); constructor.
  Qed.
  Ltac inj H := injection H; clear H; intros.
  Ltac clash :=
    repeat match goal with
    | H : mrow _ = mrow _ |- _ => inj H
    | H : _ :: _ = _ :: _ |- _ => inj H
    end;
    match goal with
    | H : mathml _ = mo _ |- _ => now apply like_mo in H
    | H : mo _ = mathml _ |- _ => symmetry in H; now apply like_mo in H
    | H : mathml _ = XNode "msub" _ |- _ => now apply like_msub in H
    | H : XNode "msub" _ = mathml _ |- _ => symmetry in H; now apply like_msub in H
    | H : mathml _ = XNode "mfrac" (mo _ :: _) |- _ => now apply like_mfrac in H
    | H : XNode "mfrac" (mo _ :: _) = mathml _ |- _ => symmetry in H; now apply like_mfrac in H
    | H : _ = _ |- _ => discriminate H
    end.

  (** Sine nodes have no proper operands. *)
  Fixpoint sines (e : expr) : Prop :=
    match e with
    | EBin _ a b => sines a /\ sines b
    | EUn OSine a => a = EUndef
    | EUn _ a => sines a
    | _ => True
    end.
  (** Numbers whose texts differ. *)
  Variables (P5 P17 : num -> Prop).
  Hypothesis tell5 : forall c c', P5 c -> P5 c' -> fmt5 c = fmt5 c' -> c = c'.
  Hypothesis tell17 : forall c c', P17 c -> P17 c' -> fmt17 c = fmt17 c' -> c = c'.
  Definition shaped (r c : nat) (d : list num) : Prop := (r = 0 -> c = 0) /\ length d = r * c /\ Forall P17 d.
  Definition clear_leaves (e : expr) : Prop :=
    names (fun x => ~ In x ["i"; "e"; "&pi;"]%string) e /\
    literals P5 e /\ matrices shaped e /\ sines e.
  Lemma cells_decode l : forall l', Forall P17 l -> Forall P17 l' ->
    map (cell fmt17) l' = map (cell fmt17) l -> l' = l.
  Proof.
    induction l as [|x l IH]; intros [|y l'] H H' E; try discriminate; [reflexivity|]. inversion H as [|? ? Hx Hl]; subst. inversion H' as [|? ? Hy Hl']; subst.
    injection E as E1 E2. rewrite (tell17 y x Hy Hx E1). f_equal. now apply IH.
  Qed.
  Lemma table_decode r : forall r' c c' d d', shaped r c d -> shaped r' c' d' ->
    table_rows fmt17 r' c' d' = table_rows fmt17 r c d -> r' = r /\ c' = c /\ d' = d.
  Proof.
    assert (Main : forall r r' c c' d d', length d = r * c -> length d' = r' * c' ->
      Forall P17 d -> Forall P17 d' ->
      table_rows fmt17 r' c' d' = table_rows fmt17 r c d -> r' = r /\ (0 < r -> c' = c) /\ d' = d).
    { clear r. induction r as [|r IH]; intros [|r'] c c' d d' L L' H H' E; try discriminate.
      - split; [reflexivity|]. split; [lia|]. destruct d, d'; try discriminate. reflexivity.
      - cbn [table_rows] in E. injection E as E1 E2. rewrite <- (firstn_skipn c d) in H. apply Forall_app in H. destruct H as [H1 H2].
        rewrite <- (firstn_skipn c' d') in H'. apply Forall_app in H'. destruct H' as [H1' H2'].
        apply cells_decode in E1; [|exact H1|exact H1'].
        assert (Hc : c' = c). { apply (f_equal (@length _)) in E1. rewrite !firstn_length in E1. cbn in L, L'. lia. }
        subst c'. apply IH in E2; [|rewrite skipn_length, L; cbn; lia|rewrite skipn_length, L'; cbn; lia|exact H2|exact H2'].
        destruct E2 as (-> & _ & E2). split; [reflexivity|]. split; [auto|].
        rewrite <- (firstn_skipn c d), <- (firstn_skipn c d'). congruence. }
    intros r' c c' d d' (Z & L & H) (Z' & L' & H') E. destruct (Main _ _ _ _ _ _ L L' H H' E) as (-> & K & ->).
    split; [reflexivity|]. split; [|reflexivity]. destruct r; [rewrite Z, Z' by reflexivity; reflexivity|apply K; lia].
  Qed.
  Lemma clear_flat o (e : expr) : clear_leaves e -> forall f, In f (flat o e) -> clear_leaves f.
  Proof.
    unfold clear_leaves.
    induction e as [| | | | | | |o' p IHp q IHq|o' p IHp]; intros H f Hf; try (destruct Hf as [<-|[]]; exact H).
    cbn [flat] in Hf. destruct (binop_eqb o o'); [|destruct Hf as [<-|[]]; exact H].
    cbn [names literals matrices sines] in H. apply in_app_iff in Hf. destruct Hf; [apply IHp|apply IHq]; tauto.
  Qed.
  Lemma clear_flatten o (a b : expr) : clear_leaves (EBin o a b) -> forall f, In f (flatten o a b) -> clear_leaves f.
  Proof.
    intros H f Hf. apply (clear_flat o (EBin o a b) H). cbn [flat]. replace (binop_eqb o o) with true by now destruct o. exact Hf.
  Qed.

  Lemma un_eq o (a : expr) : mathml (EUn o a) = match o with
    | ONeg => mrow [mo "-"; mo "("; mathml a; mo ")"] | OSine => mrow [] | OMag => mrow [mo "|"; mathml a; mo "|"] end.
  Proof. now destruct o. Qed.

  Lemma mathml_regroup : forall n (e f : expr), size e <= n -> clear_leaves e -> clear_leaves f ->
    mathml e = mathml f -> regroup e f.
  Proof.
    induction n as [|n IH]; intros e f Hs He Hf E; [destruct e; cbn in Hs; lia|].
    assert (Lists : forall o a b a' b', grouping o -> e = EBin o a b -> f = EBin o a' b' ->
      Forall2 (fun e f => mathml e = mathml f) (flatten o a b) (flatten o a' b') -> regroup e f).
    { intros o a b a' b' Ho -> -> HF. apply flat_regroup; [exact Ho|].
      assert (S1 : forall g, In g (flatten o a b) -> size g <= n) by (intros g Hg; apply flatten_size in Hg; lia).
      assert (C1 := clear_flatten o a b He). assert (C2 := clear_flatten o a' b' Hf).
      clear - IH HF S1 C1 C2. induction HF; constructor.
      - apply IH; auto; [apply S1|apply C1|apply C2]; now left.
      - apply IHHF; intros g Hg; [apply S1|apply C1|apply C2]; now right. }
    destruct e as [c| |x| | | |r c d|o a b|o a], f as [c'| |x'| | | |r' k' d'|o' a' b'|o' a'];
      try apply rg_refl;
      try (exfalso; discriminate E);
      try (exfalso; rewrite un_eq in E; destruct o' || destruct o; discriminate E);
      try (exfalso; destruct o'; rewrite ?mathml_add, ?mathml_mul, ?mathml_bin in E by discriminate; discriminate E);
      try (exfalso; destruct o; rewrite ?mathml_add, ?mathml_mul, ?mathml_bin in E by discriminate; discriminate E).
    - (* numbers *) cbn in E. injection E as E. destruct Hf as (_ & H & _), He as (_ & H' & _). cbn in H, H'. rewrite (tell5 c c' H' H E). apply rg_refl.
    - exfalso. injection E as E. apply (proj1 Hf). rewrite <- E. cbn. auto.
    - exfalso. injection E as E. apply (proj1 He). rewrite E. cbn. auto.
    - injection E as ->. apply rg_refl.
    - exfalso. injection E as E. apply (proj1 He). rewrite E. cbn. auto.
    - exfalso. injection E as E. apply (proj1 He). rewrite E. cbn. auto.
    - exfalso. injection E as E. apply (proj1 Hf). rewrite <- E. cbn. auto.
    - exfalso. injection E as E. apply (proj1 Hf). rewrite <- E. cbn. auto.
    - (* two matrices *) injection E as E. destruct He as (_ & _ & He & _), Hf as (_ & _ & Hf & _).
      destruct (table_decode _ _ _ _ _ _ Hf He E) as (-> & -> & ->). apply rg_refl.
    - exfalso.
      destruct (add_shape a' b') as (f1 & r1 & A1). destruct (mul_shape a' b') as (l1 & M1 & N1).
      change (mathml (EMat r c d)) with (mrow [mo "["; XNode "mtable" (table_rows fmt17 r c d); mo "]"]) in E.
      destruct o'; rewrite ?A1, ?M1 in E; rewrite ?mathml_bin in E by discriminate; cbn [bin_xml app] in E;
        first [discriminate E | destruct N1; clash | clash].
    - exfalso.
      destruct (add_shape a b) as (f1 & r1 & A1). destruct (mul_shape a b) as (l1 & M1 & N1).
      change (mathml (EMat r' k' d')) with (mrow [mo "["; XNode "mtable" (table_rows fmt17 r' k' d'); mo "]"]) in E.
      destruct o; rewrite ?A1, ?M1 in E; rewrite ?mathml_bin in E by discriminate; cbn [bin_xml app] in E;
        first [discriminate E | destruct N1; clash | clash].
    - (* two binary nodes *)
      assert (Ca : clear_leaves a) by (destruct He as (H1 & H2 & H3 & H4); repeat split; apply H1 || apply H2 || apply H3 || apply H4).
      assert (Cb : clear_leaves b) by (destruct He as (H1 & H2 & H3 & H4); repeat split; apply H1 || apply H2 || apply H3 || apply H4).
      assert (Ca' : clear_leaves a') by (destruct Hf as (H1 & H2 & H3 & H4); repeat split; apply H1 || apply H2 || apply H3 || apply H4).
      assert (Cb' : clear_leaves b') by (destruct Hf as (H1 & H2 & H3 & H4); repeat split; apply H1 || apply H2 || apply H3 || apply H4).
      assert (Sa : size a <= n) by (cbn in Hs; lia). assert (Sb : size b <= n) by (cbn in Hs; lia).
      assert (Both : mathml a = mathml a' -> mathml b = mathml b' -> o = o' -> regroup (EBin o a b) (EBin o' a' b')).
      { intros E1 E2 <-. apply rg_bin; auto. }
      destruct (add_shape a b) as (f1 & r1 & A1). destruct (add_shape a' b') as (f2 & r2 & A2).
      destruct (mul_shape a b) as (l1 & M1 & N1). destruct (mul_shape a' b') as (l2 & M2 & N2).
      destruct o, o'; rewrite ?A1, ?A2, ?M1, ?M2 in E; rewrite ?mathml_bin in E by discriminate; cbn [bin_xml app] in E;
        try (exfalso; first [discriminate E | destruct N1; clash | destruct N2; clash | clash]).
      + (* sums *) apply (Lists OAdd a b a' b'); auto; [now left|]. rewrite <- A1, <- A2, !mathml_add in E. injection E as E.
        apply sum_decode in E. clear - E. revert E. generalize (flatten OAdd a' b'). induction (flatten OAdd a b) as [|x l IH]; intros [|y l'] E; try discriminate; constructor.
        * now injection E.
        * apply IH. now injection E.
      + (* differences *) injection E as E1 E2. apply Both; auto.
        destruct (match b with EReal _ => _ | _ => _ end), (match b' with EReal _ => _ | _ => _ end);
          [injection E2; auto|discriminate|discriminate|injection E2; auto].
      + (* products *) apply (Lists OMul a b a' b'); auto; [now right|]. rewrite <- M1, <- M2, !mathml_mul in E. injection E as E.
        exact (product_decode _ _ _ E).
      + injection E as E1 E2. auto.
      + injection E as E1 E2. apply Both; auto.
        destruct (match a with EReal _ => _ | _ => _ end) eqn:Pa, (match a' with EReal _ => _ | _ => _ end) eqn:Pa'.
        * exact E1.
        * destruct a; discriminate.
        * destruct a'; discriminate.
        * now injection E1.
      + injection E as E1 E2. auto.
      + injection E as E1 E2. auto.
      + injection E as E1 E2. auto.
    - exfalso. rewrite un_eq in E.
      destruct (add_shape a b) as (f1 & r1 & A1). destruct (mul_shape a b) as (l1 & M1 & N1).
      destruct o', o; rewrite ?A1, ?M1 in E; rewrite ?mathml_bin in E by discriminate; cbn [bin_xml app] in E;
        first [discriminate E | destruct N1; clash | clash].
    - exfalso. rewrite un_eq in E.
      destruct (add_shape a' b') as (f1 & r1 & A1). destruct (mul_shape a' b') as (l1 & M1 & N1).
      destruct o, o'; rewrite ?A1, ?M1 in E; rewrite ?mathml_bin in E by discriminate; cbn [bin_xml app] in E;
        first [discriminate E | destruct N1; clash | clash].
    - rewrite !un_eq in E. destruct He as (H1 & H2 & H3 & H4), Hf as (K1 & K2 & K3 & K4). cbn [names literals matrices sines] in *.
      assert (Sa : size a <= n) by (cbn in Hs; lia).
      destruct o, o'; try discriminate; try (rewrite H4, K4; apply rg_refl);
        injection E as E; apply rg_un, IH; auto; repeat split; auto.
  Qed.

  (** ** What is not printed *)

  Lemma blank_bare (e : expr) : bare (blank e) = bare e.
  Proof. destruct e as [c| |y| | | |r c d|o a b|o a]; try reflexivity; [now destruct r|now destruct o]. Qed.
  Lemma blank_real (e : expr) : is_real (blank e) = is_real e.
  Proof. destruct e as [c| |y| | | |r c d|o a b|o a]; try reflexivity; [now destruct r|now destruct o]. Qed.
  Lemma flat_blank o (e : expr) : flat o (blank e) = map blank (flat o e).
  Proof.
    induction e as [| | | | | |r c d|o' p IHp q IHq|o' p IHp]; try reflexivity.
    - now destruct r.
    - cbn [blank flat]. destruct (binop_eqb o o'); [|reflexivity]. now rewrite map_app, IHp, IHq.
    - now destruct o'.
  Qed.
  Lemma flatten_blank o (a b : expr) : flatten o (blank a) (blank b) = map blank (flatten o a b).
  Proof. unfold flatten. now rewrite map_app, !flat_blank. Qed.
  Lemma mathml_blank : forall n (e : expr), size e <= n -> mathml (blank e) = mathml e.
  Proof.
    induction n as [|n IH]; intros e Hs; [destruct e; cbn in Hs; lia|].
    destruct e as [c| |y| | | |r c d|o a b|o a]; try reflexivity.
    - destruct r; reflexivity.
    - assert (Sub : forall f, In f (flatten o a b) -> mathml (blank f) = mathml f).
      { intros f H. apply IH. apply flatten_size in H. lia. }
      assert (Ia : mathml (blank a) = mathml a) by (apply IH; cbn in Hs; lia).
      assert (Ib : mathml (blank b) = mathml b) by (apply IH; cbn in Hs; lia).
      change (blank (EBin o a b)) with (EBin o (blank a) (blank b)).
      destruct o; rewrite ?mathml_add, ?mathml_mul, ?mathml_bin, ?Ia, ?Ib by discriminate; try reflexivity.
      + rewrite flatten_blank, map_map. do 2 f_equal. now apply map_ext_in.
      + cbn [bin_xml]. destruct b as [c| |y| | | |r c d|o p q|o p]; try reflexivity; [now destruct r|now destruct o].
      + rewrite flatten_blank. f_equal. generalize false. induction (flatten OMul a b) as [|f l IHl]; intros p; [reflexivity|].
        cbn [pairs map product_children]. fold (pairs l) (pairs (map blank l)). unfold factor.
        rewrite blank_bare, blank_real, (Sub f) by now left. rewrite IHl by (intros; apply Sub; now right). reflexivity.
      + cbn [bin_xml]. destruct a as [c| |y| | | |r c d|o p q|o p]; try reflexivity; [now destruct r|now destruct o].
    - assert (Ia : mathml (blank a) = mathml a) by (apply IH; cbn in Hs; lia).
      destruct o; cbn [blank MathMLSer.mathml]; now rewrite ?Ia.
  Qed.
  Lemma blank_names P (e : expr) : names P e -> names P (blank e).
  Proof. induction e as [| | | | | |r c d|o p IHp q IHq|o p IHp]; try exact (fun H => H); [now destruct r|cbn; tauto|destruct o; cbn; auto]. Qed.
  Lemma blank_literals P (e : expr) : literals P e -> literals P (blank e).
  Proof. induction e as [| | | | | |r c d|o p IHp q IHq|o p IHp]; try exact (fun H => H); [now destruct r|cbn; tauto|destruct o; cbn; auto]. Qed.
  Lemma blank_matrices (e : expr) :
    matrices (fun r c d => length d = r * c /\ Forall P17 d) e ->
    matrices shaped (blank e).
  Proof.
    induction e as [| | | | | |r c d|o p IHp q IHq|o p IHp]; try exact (fun H => H).
    - destruct r; cbn [blank matrices]; unfold shaped; intuition; discriminate.
    - cbn. tauto.
    - destruct o; cbn; auto.
  Qed.
  Lemma blank_sines (e : expr) : sines (blank e).
  Proof. induction e as [| | | | | |r c d|o p IHp q IHq|o p IHp]; cbn; auto; [now destruct r|destruct o; cbn; auto]. Qed.
End MathML.
