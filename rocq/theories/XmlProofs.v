(** The printed text of an element is read back as this element. *)
From Coq Require Import String Ascii Bool Arith Lia List.
From Verif Require Import Base Num Expr SpecMarkup SpecXml MathMLSer MathMLProofs XmlText.
Import ListNotations.
Open Scope string_scope.
Open Scope list_scope.

Section XmlInd.
  Variable P : xml -> Prop.
  Hypothesis Ht : forall n t, P (XText n t).
  Hypothesis Hn : forall n l, List.Forall P l -> P (XNode n l).
  Fixpoint xml_ind2 (x : xml) : P x :=
    match x with
    | XText n t => Ht n t
    | XNode n l => Hn n l ((fix all l : List.Forall P l := match l with [] => Forall_nil P | y :: l => Forall_cons y (xml_ind2 y) (all l) end) l)
    end.
End XmlInd.

(** Token elements hold texts, layout elements hold elements. *)
Inductive printable : xml -> Prop :=
| pr_text n t : In n ["mi"; "mn"; "mo"; "mtext"] -> xml_text t -> printable (XText n t)
| pr_node n l : In n ["mrow"; "mfrac"; "msup"; "msub"; "mtable"; "mtr"; "mtd"] -> List.Forall printable l -> printable (XNode n l).

Definition step (ms : list mark) (text : list ascii) : Prop :=
  forall r, marks Between (text ++ r) = option_map (app ms) (marks Between r).
Lemma step_nil : step [] [].
Proof. intros r. cbn. now destruct (marks Between r). Qed.
Lemma step_app ms ms' t t' : step ms t -> step ms' t' -> step (ms ++ ms') (t ++ t').
Proof.
  intros H H' r. rewrite <- app_assoc, H, H'. destruct (marks Between r); cbn; [|reflexivity]. now rewrite app_assoc.
Qed.
Lemma step_char c : xml_char c = true -> step [MChar c] (escape c).
Proof.
  intros H r. unfold escape. destruct (Ascii.eqb_spec c "&") as [->|N1]; [cbn; now destruct (marks Between r)|].
  destruct (Ascii.eqb_spec c "<") as [->|N2]; [cbn; now destruct (marks Between r)|].
  destruct (Ascii.eqb_spec c ">") as [->|N3]; [cbn; now destruct (marks Between r)|].
  cbn [app marks]. apply Ascii.eqb_neq in N1, N2, N3. rewrite N1, N2, N3, H. cbn. now destruct (marks Between r).
Qed.
Lemma step_chars l : forallb xml_char l = true -> step (map MChar l) (flat_map escape l).
Proof.
  induction l as [|c l IH]; intros H; [apply step_nil|]. cbn in H. apply andb_prop in H. destruct H as [H1 H2].
  change (step ([MChar c] ++ map MChar l) (escape c ++ flat_map escape l)). apply step_app; auto using step_char.
Qed.
Lemma step_blank c : xml_blank c = true -> step [MChar c] [c].
Proof.
  intros H. replace [c] with (escape c). { apply step_char. revert H. destruct c as [[] [] [] [] [] [] [] []]; vm_compute; congruence. }
  revert H. destruct c as [[] [] [] [] [] [] [] []]; vm_compute; congruence.
Qed.
Lemma step_blanks k : step (map MChar (repeat " "%char k)) (repeat " "%char k).
Proof.
  induction k as [|k IH]; [apply step_nil|]. cbn [repeat map].
  apply (step_app [MChar " "] _ [" "%char]); [now apply step_blank|exact IH].
Qed.

Lemma in_tag l : ~ In ">"%char l -> forall w r, marks (InTag w) (l ++ ">"%char :: r) = before (tag (w ++ l)) (marks Between r).
Proof.
  induction l as [|c l IH]; intros H w r; cbn [app marks].
  - cbn. now rewrite app_nil_r.
  - destruct (Ascii.eqb_spec c ">") as [->|N]; [destruct H; now left|].
    rewrite IH by (intros K; apply H; now right). now rewrite <- app_assoc.
Qed.
Lemma step_tag l m : ~ In ">"%char l -> tag l = Some m -> step [m] ("<"%char :: l ++ [">"%char]).
Proof.
  intros H E r. cbn [app marks]. change (Ascii.eqb "<" "<") with true. cbv iota. rewrite <- app_assoc. cbn [app].
  rewrite in_tag by exact H. cbn [app]. rewrite E. cbn. now destruct (marks Between r).
Qed.
Definition tags : list string := ["mi"; "mn"; "mo"; "mtext"; "mrow"; "mfrac"; "msup"; "msub"; "mtable"; "mtr"; "mtd"].
Ltac each H := cbn in H; repeat (destruct H as [<-|H]; [|]); [..|destruct H].
Lemma step_open n : In n tags -> step [MOpen n] (open_tag n).
Proof. intros H. each H; (apply step_tag; [cbn; intuition discriminate|reflexivity]). Qed.
Lemma step_close n : In n tags -> step [MClose n] (close_tag n).
Proof. intros H. each H; (apply (step_tag (list_ascii_of_string (String "/" _))); [cbn; intuition discriminate|reflexivity]). Qed.
Lemma step_empty n : In n tags -> step [MEmpty n] (empty_tag n).
Proof.
  intros H. unfold empty_tag. replace (list_ascii_of_string n ++ ["/"; ">"]%char) with ((list_ascii_of_string n ++ ["/"%char]) ++ [">"%char]) by now rewrite <- app_assoc.
  each H; (apply step_tag; [cbn; intuition discriminate|reflexivity]).
Qed.

(** [ms] adds the items [its]. *)
Definition adds (ms : list mark) (its : list item) : Prop :=
  forall l open done, assemble (ms ++ l) open done = assemble l open (done ++ its).
Lemma adds_nil : adds [] [].
Proof. intros l open done. now rewrite app_nil_r. Qed.
Lemma adds_app ms ms' its its' : adds ms its -> adds ms' its' -> adds (ms ++ ms') (its ++ its').
Proof. intros H H' l open done. rewrite <- app_assoc, H, H'. now rewrite app_assoc. Qed.
Lemma adds_chars l : adds (map MChar l) (map IChar l).
Proof.
  induction l as [|c l IH]; [apply adds_nil|]. cbn [map].
  apply (adds_app [MChar c] _ [IChar c]); [|exact IH]. intros r open done. reflexivity.
Qed.
Lemma adds_element n ms its : adds ms its -> adds (MOpen n :: ms ++ [MClose n]) [IElem n its].
Proof.
  intros H l open done. cbn [app assemble]. rewrite <- app_assoc, H. cbn [app assemble]. now rewrite String.eqb_refl.
Qed.
Lemma adds_empty n : adds [MEmpty n] [IElem n []].
Proof. intros l open done. reflexivity. Qed.

Lemma blanks_gone k : filter counts (map tidy (map IChar (repeat " "%char k))) = [].
Proof. induction k; [reflexivity|exact IHk]. Qed.
Lemma content_counts x : counts (content x) = true.
Proof. now destruct x. Qed.

(** What a printed element is read as: blanks and the element. *)
Lemma print_read x : printable x -> forall d, exists ms its,
  step ms (print d x) /\ adds ms its /\ filter counts (map tidy its) = [content x].
Proof.
  induction x as [n t|n l IH] using xml_ind2; intros Hx d; inversion Hx as [? ? Hn Ht|? ? Hn Hl]; subst.
  - exists (map MChar (repeat " "%char (4 * d)) ++ MOpen n :: map MChar (list_ascii_of_string t) ++ [MClose n]),
      (map IChar (repeat " "%char (4 * d)) ++ [IElem n (map IChar (list_ascii_of_string t))]).
    assert (Hg : In n tags) by (cbn in *; tauto).
    split; [|split].
    + cbn [print]. apply step_app; [apply step_blanks|]. apply (step_app [MOpen n]); [now apply step_open|].
      apply step_app; [now apply step_chars|now apply step_close].
    + apply adds_app; [apply adds_chars|]. apply adds_element, adds_chars.
    + rewrite map_app, filter_app, blanks_gone. cbn [app map tidy content].
      replace (token n) with true by (each Hn; reflexivity). reflexivity.
  - assert (Hg : In n tags) by (cbn in *; tauto). assert (Tk : token n = false) by (each Hn; reflexivity).
    assert (K : exists ms its, step ms (flat_map (fun y => print (S d) y ++ [line_feed]) l) /\ adds ms its /\ filter counts (map tidy its) = map content l).
    { clear Hx. induction l as [|y l IHl]; [exists [], []; repeat split; [apply step_nil|apply adds_nil]|].
      inversion IH as [|? ? Hy IH']; subst. inversion Hl as [|? ? Py Pl]; subst.
      destruct (Hy Py (S d)) as (m1 & i1 & S1 & A1 & E1), (IHl IH' Pl) as (m2 & i2 & S2 & A2 & E2).
      exists ((m1 ++ [MChar line_feed]) ++ m2), ((i1 ++ [IChar line_feed]) ++ i2). split; [|split].
      - cbn [flat_map]. repeat apply step_app; auto. now apply step_blank.
      - repeat apply adds_app; auto. apply (adds_chars [line_feed]).
      - rewrite !map_app, !filter_app, E1, E2. reflexivity. }
    destruct l as [|y l].
    + exists (map MChar (repeat " "%char (4 * d)) ++ [MEmpty n]), (map IChar (repeat " "%char (4 * d)) ++ [IElem n []]). split; [|split].
      * cbn [print]. apply step_app; [apply step_blanks|now apply step_empty].
      * apply adds_app; [apply adds_chars|apply adds_empty].
      * rewrite map_app, filter_app, blanks_gone. cbn [app map tidy content]. now rewrite Tk.
    + destruct K as (ms & its & S1 & A1 & E1).
      set (b := map MChar (repeat " "%char (4 * d))). set (b' := map IChar (repeat " "%char (4 * d))).
      exists (b ++ MOpen n :: ([MChar line_feed] ++ ms ++ b) ++ [MClose n]),
        (b' ++ [IElem n ([IChar line_feed] ++ its ++ b')]). split; [|split].
      * cbn [print]. apply step_app; [apply step_blanks|]. apply (step_app [MOpen n]); [now apply step_open|].
        rewrite <- !app_assoc. apply (step_app [MChar line_feed] _ [line_feed]); [now apply step_blank|].
        apply step_app; [exact S1|]. apply step_app; [apply step_blanks|now apply step_close].
      * apply adds_app; [apply adds_chars|]. apply adds_element. apply (adds_app [MChar line_feed]); [apply (adds_chars [line_feed])|].
        apply adds_app; [exact A1|apply adds_chars].
      * unfold b'. rewrite map_app, filter_app, blanks_gone. cbn [app map tidy filter counts]. rewrite Tk, map_app.
        cbn [map tidy filter]. change (counts (IChar line_feed)) with false. cbv iota. rewrite filter_app, blanks_gone, app_nil_r, E1. reflexivity.
Qed.
Lemma xml_string_document x : printable x -> document (xml_string x) = Some (content x).
Proof.
  intros Hx. destruct (print_read x Hx 0) as (ms & its & S1 & A1 & E1).
  unfold document, xml_string. rewrite list_ascii_of_string_of_list_ascii, S1.
  change (marks Between [line_feed]) with (Some [MChar line_feed]). cbn [option_map].
  rewrite A1. cbn [app assemble]. rewrite map_app, filter_app, E1. cbn.
  destruct (content x) eqn:C; [destruct x; discriminate|reflexivity].
Qed.

Lemma content_eq x : forall y, printable x -> printable y -> content x = content y -> x = y.
Proof.
  assert (T : forall n, In n ["mi"; "mn"; "mo"; "mtext"] -> In n ["mrow"; "mfrac"; "msup"; "msub"; "mtable"; "mtr"; "mtd"] -> False).
  { intros n H K. each H; cbn in K; intuition discriminate. }
  induction x as [n t|n l IH] using xml_ind2; intros y Hx Hy E; inversion Hx as [? ? Hn Ht|? ? Hn Hl]; subst;
    inversion Hy as [m u Hm Hu|m l' Hm Hl']; subst; cbn [content] in E; injection E as En Ec; subst.
  - f_equal. rewrite <- (string_of_list_ascii_of_string t), <- (string_of_list_ascii_of_string u). f_equal.
    revert Ec. generalize (list_ascii_of_string t), (list_ascii_of_string u). induction l as [|c l IH]; intros [|c' l'] H; try discriminate; [reflexivity|].
    cbn in H. injection H as -> H. f_equal. auto.
  - destruct (T m); assumption.
  - destruct (T m); assumption.
  - f_equal. clear Hx Hy. revert l' Hl' Ec. induction l as [|x l IHl]; intros [|y l'] Hl' Ec; try discriminate; [reflexivity|].
    cbn in Ec. injection Ec as E1 E2. inversion IH; subst. inversion Hl; subst. inversion Hl'; subst. f_equal; auto.
Qed.

(** ** What the serializer makes can be printed *)
Section Serializer.
  Context {num : Type} {NO : NumOps num}.
  Notation expr := (expr num).
  Variable fmt5 fmt17 : num -> string.
  Notation mathml := (mathml fmt5 fmt17).
  (** Names and numbers of [e] have texts XML can hold. *)
  Definition holdable (e : expr) : Prop :=
    names xml_text e /\ literals (fun c => xml_text (fmt5 c)) e /\ matrices (fun _ _ d => List.Forall (fun c => xml_text (fmt17 c)) d) e.

  Lemma holdable_flat o (e : expr) : holdable e -> forall f, In f (flat o e) -> holdable f.
  Proof.
    induction e as [| | | | | | |o' p IHp q IHq|o' p IHp]; intros H f Hf; try (destruct Hf as [<-|[]]; exact H).
    cbn [flat] in Hf. destruct (binop_eqb o o'); [|destruct Hf as [<-|[]]; exact H].
    destruct H as ([] & [] & []). apply in_app_iff in Hf. destruct Hf; [apply IHp|apply IHq]; unfold holdable; auto.
  Qed.
  Ltac fa := repeat (apply List.Forall_cons || apply List.Forall_nil || assumption || match goal with H : printable (mo _) |- _ => apply H end).
  Lemma mathml_printable : forall n (e : expr), size e <= n -> holdable e -> printable (mathml e).
  Proof.
    assert (Mo : forall t, xml_text t -> printable (mo t)) by (intros; constructor; cbn; auto).
    assert (Mi : forall t, xml_text t -> printable (mi t)) by (intros; constructor; cbn; auto).
    assert (Mn : forall t, xml_text t -> printable (mn t)) by (intros; constructor; cbn; auto).
    assert (Row : forall l, List.Forall printable l -> printable (mrow l)) by (intros l H; constructor; cbn; auto).
    pose proof (Mo "+" eq_refl) as Mplus. pose proof (Mo "-" eq_refl) as Mminus. pose proof (Mo "(" eq_refl) as Ml.
    pose proof (Mo ")" eq_refl) as Mr. pose proof (Mo times eq_refl) as Mt. pose proof (Mo "d" eq_refl) as Md.
    pose proof (Mo "|" eq_refl) as Mb. pose proof (Mo "&int;" eq_refl) as Mint.
    induction n as [|n IH]; intros e Hs He; [destruct e; cbn in Hs; lia|].
    destruct e as [c| |y| | | |r c d|o a b|o a].
    - apply Mn. apply He.
    - now apply Mi.
    - apply Mi. apply He.
    - constructor; [cbn; auto|reflexivity].
    - now apply Mi.
    - now apply Mi.
    - destruct He as (_ & _ & He). cbn in He. apply Row. constructor; [now apply Mo|]. constructor; [|constructor; [now apply Mo|constructor]].
      constructor; [cbn; auto 10|]. clear Hs. revert d He. induction r as [|r IHr]; intros d He; [constructor|]. cbn [table_rows]. constructor.
      + constructor; [cbn; auto 10|]. apply List.Forall_map. apply Forall_forall. intros v Hv.
        constructor; [cbn; auto 10|]. constructor; [|constructor]. apply Mn. rewrite Forall_forall in He. apply He.
        rewrite <- (firstn_skipn c d). apply in_app_iff. now left.
      + apply IHr. rewrite <- (firstn_skipn c d) in He. now apply Forall_app in He.
    - assert (Ha : holdable a) by (destruct He as ([] & [] & []); repeat split; assumption).
      assert (Hb : holdable b) by (destruct He as ([] & [] & []); repeat split; assumption).
      assert (Ia : printable (mathml a)) by (apply IH; [cbn in Hs; lia|exact Ha]).
      assert (Ib : printable (mathml b)) by (apply IH; [cbn in Hs; lia|exact Hb]).
      assert (Sub : forall f, In f (flatten o a b) -> printable (mathml f)).
      { intros f H. apply IH; [apply flatten_size in H; lia|]. unfold flatten in H. apply in_app_iff in H.
        destruct H as [H|H]; [apply (holdable_flat o a Ha f H)|apply (holdable_flat o b Hb f H)]. }
      destruct o; try (rewrite mathml_bin by discriminate; cbn [bin_xml]).
      + rewrite mathml_add. apply Row. induction (flatten OAdd a b) as [|f l IHl]; [constructor|].
        cbn [map sum_children]. destruct l as [|g l].
        * constructor; [apply Sub; now left|constructor].
        * constructor; [apply Sub; now left|]. constructor; [exact Mplus|]. apply IHl. intros h Hh. apply Sub. now right.
      + apply Row. constructor; [exact Ia|]. constructor; [exact Mminus|].
        destruct (match b with EReal _ => _ | _ => _ end); fa.
      + rewrite mathml_mul. apply Row. generalize false. induction (flatten OMul a b) as [|f l IHl]; intros p; [constructor|].
        cbn [pairs map product_children]. rewrite !Forall_app. split; [|split].
        * destruct (p && is_real f); fa.
        * unfold factor. destruct (bare f); fa; apply Sub; now left.
        * apply IHl. intros h Hh. apply Sub. now right.
      + constructor; [cbn; auto 10|fa].
      + constructor; [cbn; auto 10|]. constructor; [|fa]. destruct (match a with EReal _ => _ | _ => _ end); [exact Ia|]. apply Row. fa.
      + apply Row. constructor; [constructor; [cbn; auto 10|]; constructor; [now apply Mi|]; fa|]. fa.
      + apply Row. constructor; [constructor; [cbn; auto 10|]; constructor; [exact Md|]; constructor; [apply Row; fa|constructor]|]. fa.
      + apply Row. constructor; [exact Mint|]. constructor; [exact Ia|]. constructor; [|constructor]. apply Row. fa.
    - assert (Ia : printable (mathml a)).
      { apply IH; [cbn in Hs; lia|]. destruct He as (H1 & H2 & H3). repeat split; assumption. }
      destruct o; apply Row; fa.
  Qed.
End Serializer.
