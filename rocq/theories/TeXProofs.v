(** Facts about the TeX serializer. *)
From Coq Require Import String Ascii Bool Arith Lia.
From Coq Require Import List.
From Verif Require Import Base Num Expr InFixSer TeXSer SpecMarkup.
Import ListNotations.
Open Scope list_scope.

Notation chars := list_ascii_of_string.

Lemma chars_app s t : chars (s ++ t) = chars s ++ chars t.
Proof. induction s; cbn; [reflexivity|]. now rewrite IHs. Qed.

(** ** Nesting *)

Definition clear_start (l : list ascii) : Prop :=
  match l with [] => True | c :: _ => tex_letter c = false end.
(** Reading [l] leaves the open brackets alone, whatever follows. *)
Definition through (l : list ascii) : Prop :=
  forall t st, clear_start t -> nest (tex_tokens None (l ++ t)) st = nest (tex_tokens None t) st.

Lemma through_nil : through [].
Proof. intros t st _. reflexivity. Qed.
Lemma through_char c l : c <> bslash -> c <> "{"%char -> c <> "}"%char -> through l -> through (c :: l).
Proof.
  intros H1 H2 H3 Hl t st Ht. cbn [app tex_tokens].
  rewrite (proj2 (Ascii.eqb_neq c bslash) H1). rewrite <- (Hl t st Ht).
  destruct c as [[] [] [] [] [] [] [] []]; try reflexivity; exfalso; [apply H2|apply H3]; reflexivity.
Qed.
Lemma through_plain s : no_markup s -> forall l, through l -> through (chars s ++ l).
Proof.
  unfold no_markup. induction (chars s) as [|c l IH]; intros H r Hr; [exact Hr|]. cbn [app].
  destruct (H c (or_introl eq_refl)) as (H1 & H2 & H3). apply through_char; auto. apply IH; [|exact Hr].
  intros d Hd. apply H. now right.
Qed.

Section TeX.
  Context {num : Type}.
  Notation expr := (expr num).
  Variable fmt : nat -> num -> string.
  Variable opts : tex_opts.
  Notation tex := (tex fmt opts).

  Lemma tex_ok e : exists s, tex e = inl s.
  Proof.
    induction e as [c| |x| | | |r c d|o a IHa b IHb|o a IHa]; cbn; eauto.
    - destruct IHa as [s ->], IHb as [t ->]. cbn. eauto.
    - destruct IHa as [s ->]. eauto.
  Qed.

  Lemma through_row l : (forall c, In c l -> no_markup (fmt 5 c)) -> through (chars (tex_row fmt l)).
  Proof.
    induction l as [|x l IH]; intros H; [apply through_nil|]. cbn [tex_row]. destruct l as [|y l].
    - rewrite <- app_nil_r. apply through_plain; [apply H; now left|apply through_nil].
    - rewrite chars_app. apply through_plain; [apply H; now left|]. cbn [String.append chars].
      apply through_char; try discriminate. apply IH. intros c Hc. apply H. now right.
  Qed.

  Ltac step H := rewrite <- ?app_assoc; cbn [app chars]; rewrite H by reflexivity.

  Lemma through_rows r : forall c d, (forall x, In x d -> no_markup (fmt 5 x)) ->
    forall l, through (chars l) -> through (chars (tex_rows fmt r c d ++ l)).
  Proof.
    induction r as [|r IH]; intros c d H l Hl; [exact Hl|].
    cbn [tex_rows]. intros t st Ht.
    assert (Hr : through (chars (tex_row fmt (firstn c d)))).
    { apply through_row. intros x Hx. apply H. rewrite <- (firstn_skipn c d). apply in_app_iff. now left. }
    rewrite !chars_app, <- !app_assoc. rewrite Hr by reflexivity.
    change (chars "\\" ++ chars newline ++ chars (tex_rows fmt r c (skipn c d)) ++ chars l ++ t)
      with ("\"%char :: "\"%char :: ascii_of_nat 10 :: chars (tex_rows fmt r c (skipn c d)) ++ chars l ++ t).
    rewrite app_assoc, <- chars_app.
    change (nest (tex_tokens None ((chars (tex_rows fmt r c (skipn c d) ++ l)) ++ t)) st = nest (tex_tokens None t) st).
    apply IH; auto. intros x Hx. apply H. rewrite <- (firstn_skipn c d). apply in_app_iff. now right.
  Qed.

  Lemma through_tex e : names no_markup e -> numbers (fun c => forall k, no_markup (fmt k c)) e ->
    forall s, tex e = inl s -> through (chars s).
  Proof.
    induction e as [c| |x| | | |r c d|o a IHa b IHb|o a IHa]; cbn [names numbers TeXSer.tex]; intros Hn Hc s Hs.
    - injection Hs as <-. rewrite <- app_nil_r. apply through_plain; [apply Hc|apply through_nil].
    - injection Hs as <-. destruct (to_img opts); intros t st _; reflexivity.
    - injection Hs as <-. rewrite <- app_nil_r. now apply through_plain; [|apply through_nil].
    - injection Hs as <-. intros t st _; reflexivity.
    - injection Hs as <-. intros t st _; reflexivity.
    - injection Hs as <-. intros t st Ht. cbn -[tex_letter]. destruct t as [|c t]; [reflexivity|].
      cbn [clear_start] in Ht. cbn [tex_tokens]. rewrite Ht. reflexivity.
    - apply (f_equal (fun r => match r with inl s => s | inr s => s end)) in Hs; cbn beta iota in Hs. subst s.
      intros t st Ht. rewrite !chars_app, <- !app_assoc.
      cbn -[tex_rows newline].
      change (chars newline ++ chars (tex_rows fmt r c d) ++ chars "\end{bmatrix}" ++ chars newline ++ t)
        with (ascii_of_nat 10 :: chars (tex_rows fmt r c d) ++ chars ("\end{bmatrix}" ++ newline) ++ t).
      change (nest (tex_tokens None (chars (tex_rows fmt r c d) ++ chars ("\end{bmatrix}" ++ newline) ++ t)) st = nest (tex_tokens None t) st).
      rewrite app_assoc, <- chars_app. apply through_rows; auto.
      + intros x Hx k. rewrite Forall_forall in Hc. apply Hc. exact Hx.
      + intros t' st' Ht'. reflexivity.
    - destruct (tex_ok a) as [x Ex], (tex_ok b) as [y Ey]. rewrite Ex, Ey in Hs. cbn [two] in Hs.
      apply (f_equal (fun r => match r with inl s => s | inr s => s end)) in Hs; cbn beta iota in Hs. subst s.
      destruct Hn as [Hna Hnb], Hc as [Hca Hcb].
      assert (Ta := IHa Hna Hca x Ex). assert (Tb := IHb Hnb Hcb y Ey). clear - Ta Tb.
      intros t st Ht. unfold tex_bin, tex_arith. destruct o, (to_spacing opts), (to_div opts);
        rewrite !chars_app, <- !app_assoc; cbn -[through]; rewrite Ta by reflexivity; cbn -[through];
        rewrite Tb by (reflexivity || exact Ht); reflexivity.
    - destruct (tex_ok a) as [x Ex]. rewrite Ex in Hs.
      apply (f_equal (fun r => match r with inl s => s | inr s => s end)) in Hs; cbn beta iota in Hs. subst s.
      assert (Ta := IHa Hn Hc x Ex). clear - Ta.
      intros t st Ht. destruct o; cbn [tex_un]; rewrite !chars_app, <- !app_assoc; cbn -[through];
        rewrite Ta by reflexivity; reflexivity.
  Qed.

  (** ** Unique reading *)

  Definition txt (e : expr) : list ascii := match tex e with inl s => chars s | inr _ => [] end.

  (** Names and numbers that print unambiguously. *)
  Definition img_text : string := match to_img opts with SymI => "i" | SymJ => "j" end.
  Definition good_name (x : string) : Prop := plain_name x /\ x <> img_text /\ x <> "e"%string /\ x <> "Undefined"%string.
  Definition good_number (c : num) : Prop :=
    plain_number (fmt (to_places opts + 1) c) /\
    forall c', fmt (to_places opts + 1) c' = fmt (to_places opts + 1) c -> c' = c.
  Definition good_entry (c : num) : Prop := plain_number (fmt 5 c) /\ forall c', fmt 5 c' = fmt 5 c -> c' = c.
  Definition good (e : expr) : Prop := names good_name e /\ literals good_number e /\ matrices (fun r c d => (r = 0 -> c = 0) /\ length d = r * c /\ Forall good_entry d) e.

  Definition bin_chars (o : binop) (x y : list ascii) : list ascii :=
    match o with
    | OAdd | OSub | OMul =>
      let op := match o with OAdd => "+"%string | OSub => "-"%string | _ => "*"%string end in
      let op := match to_spacing opts with Minimal => chars op | Regular => " "%char :: chars op ++ [" "%char] end in
      chars "\left(" ++ x ++ op ++ y ++ chars "\right)"
    | ODiv => match to_div opts with
              | DivSign => chars "\left({" ++ x ++ chars "}\div{" ++ y ++ chars "}\right)"
              | Frac => chars "\left(\frac{" ++ x ++ chars "}{" ++ y ++ chars "}\right)"
              end
    | OExp => chars "\left(" ++ x ++ chars "\right)^{" ++ y ++ chars "}"
    | OLog => chars "\log_{" ++ x ++ chars "}\left(" ++ y ++ chars "\right)"
    | ODeriv => chars "\frac{d}{d" ++ x ++ chars "}\left(" ++ y ++ chars "\right)"
    | OInt => chars "\int\left(" ++ x ++ chars "\right)d" ++ y
    end.
  Definition un_chars (o : unop) (x : list ascii) : list ascii :=
    match o with
    | ONeg => chars "-\left(" ++ x ++ chars "\right)"
    | OSine => chars "sine\left(" ++ x ++ chars "\right)"
    | OMag => chars "\left|" ++ x ++ chars "\right|"
    end.
  Lemma txt_bin o a b : txt (EBin o a b) = bin_chars o (txt a) (txt b).
  Proof.
    unfold txt. destruct (tex_ok a) as [x Ex], (tex_ok b) as [y Ey]. cbn [TeXSer.tex]. rewrite Ex, Ey. cbn [two].
    unfold tex_bin, bin_chars, tex_arith. destruct o, (to_spacing opts), (to_div opts); rewrite ?chars_app; reflexivity.
  Qed.
  Lemma txt_un o a : txt (EUn o a) = un_chars o (txt a).
  Proof.
    unfold txt. destruct (tex_ok a) as [x Ex]. cbn [TeXSer.tex]. rewrite Ex.
    destruct o; cbn [tex_un un_chars]; rewrite ?chars_app; reflexivity.
  Qed.

  Lemma txt_mat r c d : txt (EMat r c d) =
    chars "\begin{bmatrix}" ++ chars newline ++ chars (tex_rows fmt r c d) ++ chars "\end{bmatrix}" ++ chars newline.
  Proof. unfold txt. cbn [TeXSer.tex]. rewrite !chars_app. reflexivity. Qed.

  (** What can follow an expression. *)
  Definition stop (t : list ascii) : Prop :=
    match t with
    | [] => True
    | "+"%char :: _ | "-"%char :: _ | "*"%char :: _ | " "%char :: _ | "}"%char :: _ => True
    | "\"%char :: "r"%char :: _ => True
    | _ => False
    end.
  Definition is_word (w : list ascii) : Prop := w <> [] /\ forall c, In c w -> word_char c = true.
  Lemma stop_word t : stop t -> match t with [] => True | c :: _ => word_char c = false end.
  Proof.
    destruct t as [|c t]; [auto|]. intros H.
    destruct c as [[] [] [] [] [] [] [] []]; try reflexivity; contradiction H.
  Qed.
  Lemma word_split w : forall w' t t', (forall c, In c w -> word_char c = true) -> (forall c, In c w' -> word_char c = true) ->
    match t with [] => True | c :: _ => word_char c = false end ->
    match t' with [] => True | c :: _ => word_char c = false end ->
    w ++ t = w' ++ t' -> w = w' /\ t = t'.
  Proof.
    induction w as [|c w IH]; intros [|c' w'] t t' H H' Ht Ht' E; cbn [app] in E.
    - auto.
    - subst t. rewrite (H' c') in Ht by now left. discriminate.
    - subst t'. rewrite (H c) in Ht' by now left. discriminate.
    - injection E as <- E. destruct (IH w' t t') as [-> ->]; auto; intros x Hx; [apply H|apply H']; now right.
  Qed.

  Lemma name_word x : plain_name x -> is_word (chars x).
  Proof.
    intros (c & l & E & H1 & H2). rewrite E. split; [discriminate|]. intros d [<-|Hd]; auto.
    unfold word_char. now rewrite H1.
  Qed.
  Lemma numeral_word x : numeral x -> is_word (chars x).
  Proof.
    intros (c & l & E & H1 & H2). rewrite E. split; [discriminate|]. intros d [<-|Hd]; auto.
    unfold word_char. rewrite H1. now rewrite orb_true_r.
  Qed.

  (** A text that starts with a word is that word. *)
  Lemma word_vs e w t t' : good e -> is_word w -> stop t -> stop t' -> txt e ++ t' = w ++ t -> txt e = w /\ t' = t.
  Proof.
    intros (Hn & Hc & Hm) [Hw1 Hw2] Ht Ht' E.
    assert (Leaf : (forall c, In c (txt e) -> word_char c = true) -> txt e = w /\ t' = t)
      by (intros He; apply word_split; auto; apply stop_word; assumption).
    destruct w as [|d w]; [congruence|]. assert (Hd := Hw2 d (or_introl eq_refl)).
    destruct e as [c| |x| | | |r c d'|o a b|o a]; cbn [names literals matrices] in Hn, Hc, Hm.
    - destruct Hc as [[Hc|(s & Es & Hc)] _].
      + apply Leaf. apply (numeral_word _ Hc).
      + exfalso. unfold txt in E. cbn [TeXSer.tex] in E. rewrite Es in E. cbn in E. injection E as <- _. discriminate.
    - apply Leaf. unfold txt. cbn [TeXSer.tex]. destruct (to_img opts); intros c [<-|[]]; reflexivity.
    - apply Leaf. apply name_word, Hn.
    - apply Leaf. unfold txt. cbn. intros c H. repeat destruct H as [<-|H]; try reflexivity. contradiction.
    - apply Leaf. unfold txt. cbn. intros c H. repeat destruct H as [<-|H]; try reflexivity. contradiction.
    - exfalso. cbn in E. injection E as <- _. discriminate.
    - exfalso. rewrite txt_mat in E. cbn [chars app] in E. injection E as <- _. discriminate.
    - exfalso. rewrite txt_bin in E. unfold bin_chars in E.
      destruct o, (to_spacing opts), (to_div opts); cbn in E; injection E as <- _; discriminate.
    - exfalso. rewrite txt_un in E. destruct o; try (cbn in E; injection E as <- _; discriminate).
      cbn [un_chars] in E. change (chars "sine\left(") with (chars "sine" ++ chars "\left(") in E. rewrite <- !app_assoc in E.
      apply word_split in E; [|cbn; intros c H; repeat destruct H as [<-|H]; try reflexivity; contradiction|exact Hw2|reflexivity|now apply stop_word].
      destruct E as [_ E]. cbn in E. subst t. cbn in Ht. exact Ht.
  Qed.

  Lemma chars_inj s t : chars s = chars t -> s = t.
  Proof.
    intros H. rewrite <- (string_of_list_ascii_of_string s), <- (string_of_list_ascii_of_string t). now rewrite H.
  Qed.
  Lemma letter_not_digit c : tex_letter c = true -> digit_char c = true -> False.
  Proof. destruct c as [[] [] [] [] [] [] [] []]; cbn; discriminate. Qed.

  Definition wordlike (e : expr) : Prop :=
    match e with
    | EReal c => numeral (fmt (to_places opts + 1) c)
    | EImag | EVar _ | EUndef | EEuler => True
    | _ => False
    end.
  Lemma wordlike_word e : good e -> wordlike e -> is_word (txt e).
  Proof.
    intros (Hn & Hc & _) H. destruct e; try contradiction; unfold txt; cbn [TeXSer.tex].
    - now apply numeral_word.
    - destruct (to_img opts); split; try discriminate; intros d [<-|[]]; reflexivity.
    - apply name_word, Hn.
    - split; [discriminate|]. cbn. intros d Hd. repeat destruct Hd as [<-|Hd]; try reflexivity. contradiction.
    - split; [discriminate|]. cbn. intros d Hd. repeat destruct Hd as [<-|Hd]; try reflexivity. contradiction.
  Qed.
  Lemma word_wordlike e : good e -> is_word (txt e) -> wordlike e.
  Proof.
    intros (Hn & Hc & Hm) [_ H].
    assert (Bad : forall c l, txt e = c :: l -> word_char c = false -> wordlike e).
    { intros c l E Hf. rewrite (H c) in Hf; [discriminate|]. rewrite E. now left. }
    destruct e as [c| |x| | | |r c d'|o a b|o a]; cbn [names literals matrices wordlike] in *; auto.
    - destruct Hc as [[Hc|(s & Es & Hc)] _]; [exact Hc|]. eapply Bad; [unfold txt; cbn [TeXSer.tex]; rewrite Es; reflexivity|reflexivity].
    - eapply Bad; reflexivity.
    - eapply Bad; [rewrite txt_mat; reflexivity|reflexivity].
    - rewrite txt_bin in Bad. unfold bin_chars in Bad.
      destruct o, (to_spacing opts), (to_div opts); cbn in Bad; eapply Bad; reflexivity.
    - rewrite txt_un in Bad, H. destruct o; try (cbn in Bad; eapply Bad; reflexivity).
      cbn [un_chars] in H. assert (Hx := H "\"%char). rewrite in_app_iff in Hx. discriminate Hx. left. cbn. auto 20.
  Qed.
  Lemma wordlike_inj e e' : good e -> good e' -> wordlike e -> wordlike e' -> txt e = txt e' -> e = e'.
  Proof.
    intros (Hn & Hc & Hm) (Hn' & Hc' & Hm') H H' E.
    assert (Clash : forall c x, numeral (fmt (to_places opts + 1) c) -> plain_name x ->
              chars (fmt (to_places opts + 1) c) = chars x -> False).
    { intros c x (d & l & E1 & H1 & _) (d' & l' & E2 & H2 & _) E3. rewrite E1, E2 in E3. injection E3 as -> _.
      eapply letter_not_digit; eauto. }
    assert (Ni : plain_name img_text).
    { unfold img_text. destruct (to_img opts); eexists _, _; (split; [reflexivity|]); (split; [reflexivity|]); intros ? []. }
    assert (Ne : plain_name "e").
    { eexists _, _; (split; [reflexivity|]); (split; [reflexivity|]); intros ? []. }
    assert (Nu : plain_name "Undefined").
    { eexists _, _; (split; [reflexivity|]); (split; [reflexivity|]). intros d Hd. cbn in Hd.
      repeat destruct Hd as [<-|Hd]; try reflexivity. contradiction. }
    assert (Ti : txt EImag = chars img_text) by reflexivity.
    destruct e as [c| |x| | | | | |], e' as [c'| |x'| | | | | |]; try contradiction; cbn [names literals wordlike] in *; auto;
      try (exfalso; eapply Clash; [exact H|..|exact E]; eauto; apply Hn');
      try (exfalso; eapply Clash; [exact H'|..|symmetry; exact E]; eauto; apply Hn).
    - f_equal. apply Hc'. apply chars_inj. exact E.
    - exfalso. apply (proj1 (proj2 Hn')). apply chars_inj. symmetry. exact E.
    - unfold txt in E. cbn in E. destruct (to_img opts); discriminate.
    - unfold txt in E. cbn in E. destruct (to_img opts); discriminate.
    - exfalso. apply (proj1 (proj2 Hn)). apply chars_inj. exact E.
    - f_equal. now apply chars_inj.
    - exfalso. apply (proj2 (proj2 (proj2 Hn))). apply chars_inj. exact E.
    - exfalso. apply (proj1 (proj2 (proj2 Hn))). apply chars_inj. exact E.
    - unfold txt in E. cbn in E. destruct (to_img opts); discriminate.
    - exfalso. apply (proj2 (proj2 (proj2 Hn'))). apply chars_inj. symmetry. exact E.
    - discriminate.
    - unfold txt in E. cbn in E. destruct (to_img opts); discriminate.
    - exfalso. apply (proj1 (proj2 (proj2 Hn'))). apply chars_inj. symmetry. exact E.
    - discriminate.
  Qed.

  (** The first closing brace that matches nothing. *)
  Fixpoint close (l : list ascii) (d : nat) : option (list ascii * list ascii) :=
    match l with
    | [] => None
    | c :: l =>
      match (if Ascii.eqb c "}" then match d with O => None | S d => Some d end
             else if Ascii.eqb c "{" then Some (S d) else Some d) with
      | None => Some ([], l)
      | Some d => match close l d with Some (a, b) => Some (c :: a, b) | None => None end
      end
    end.
  Definition skips (s : list ascii) : Prop :=
    forall r d, close (s ++ r) d = match close r d with Some (a, b) => Some (s ++ a, b) | None => None end.
  Lemma skips_nil : skips [].
  Proof. intros r d. cbn. now destruct (close r d) as [[]|]. Qed.
  Lemma skips_app a b : skips a -> skips b -> skips (a ++ b).
  Proof. intros Ha Hb r d. rewrite <- app_assoc, Ha, Hb. destruct (close r d) as [[]|]; [now rewrite app_assoc|reflexivity]. Qed.
  Lemma skips_char c : c <> "{"%char -> c <> "}"%char -> skips [c].
  Proof.
    intros H1 H2 r d. cbn [app close]. rewrite (proj2 (Ascii.eqb_neq _ _) H1), (proj2 (Ascii.eqb_neq _ _) H2). reflexivity.
  Qed.
  Lemma skips_brace a : skips a -> skips ("{"%char :: a ++ ["}"%char]).
  Proof.
    intros Ha r d. cbn [app close]. rewrite (proj2 (Ascii.eqb_neq "{" "}")) by discriminate.
    rewrite Ascii.eqb_refl. rewrite <- app_assoc, Ha. cbn [app close]. rewrite Ascii.eqb_refl.
    destruct (close r d) as [[p q]|]; [now rewrite <- app_assoc|reflexivity].
  Qed.
  Lemma skips_word w : (forall c, In c w -> word_char c = true) -> skips w.
  Proof.
    induction w as [|c w IH]; intros H; [apply skips_nil|]. apply (skips_app [c] w).
    - apply skips_char; intros ->; specialize (H _ (or_introl eq_refl)); discriminate.
    - apply IH. intros d Hd. apply H. now right.
  Qed.
  Lemma skips_split a b t t' : skips a -> skips b -> a ++ "}"%char :: t = b ++ "}"%char :: t' -> a = b /\ t = t'.
  Proof.
    intros Ha Hb E. assert (Ea := Ha ("}"%char :: t) 0). rewrite E, Hb in Ea. cbn in Ea.
    rewrite !app_nil_r in Ea. injection Ea as -> ->. auto.
  Qed.
  Lemma skips_lit s : forallb (fun c => negb (Ascii.eqb c "{" || Ascii.eqb c "}")) s = true -> skips s.
  Proof.
    induction s as [|c s IH]; intros H; [apply skips_nil|]. cbn [forallb] in H. apply andb_true_iff in H. destruct H as [H1 H2].
    apply (skips_app [c] s); [|auto]. apply negb_true_iff, orb_false_iff in H1. destruct H1 as [H1 H3].
    apply Ascii.eqb_neq in H1, H3. now apply skips_char.
  Qed.

  Lemma skips_group s1 a s2 : skips a ->
    forallb (fun c => negb (Ascii.eqb c "{" || Ascii.eqb c "}")) s1 = true ->
    skips s2 -> skips (s1 ++ "{"%char :: a ++ "}"%char :: s2).
  Proof.
    intros Ha H1 H2. apply skips_app; [now apply skips_lit|].
    change ("{"%char :: a ++ "}"%char :: s2) with ("{"%char :: a ++ (["}"%char] ++ s2)).
    rewrite app_assoc. apply (skips_app ("{"%char :: a ++ ["}"%char])); [now apply skips_brace|exact H2].
  Qed.
  Lemma skips_around s1 a s2 : skips a ->
    forallb (fun c => negb (Ascii.eqb c "{" || Ascii.eqb c "}")) s1 = true ->
    skips s2 -> skips (s1 ++ a ++ s2).
  Proof. intros Ha H1 H2. apply skips_app; [now apply skips_lit|]. now apply skips_app. Qed.

  Lemma skips_entry c : plain_number (fmt 5 c) -> skips (chars (fmt 5 c)).
  Proof.
    intros [H|(s & E & H)]; [apply skips_word, (numeral_word _ H)|]. rewrite E.
    apply (skips_app ["-"%char]); [now apply skips_char|]. apply skips_word, (numeral_word _ H).
  Qed.
  Lemma skips_row l : Forall good_entry l -> skips (chars (tex_row fmt l)).
  Proof.
    induction 1 as [|x l [Hx _] Hl IH]; [apply skips_nil|]. cbn [tex_row]. destruct l as [|y l]; [now apply skips_entry|].
    rewrite !chars_app. apply skips_app; [now apply skips_entry|]. apply skips_app; [now apply skips_char|exact IH].
  Qed.
  Lemma skips_rows r : forall c d, Forall good_entry d -> skips (chars (tex_rows fmt r c d)).
  Proof.
    induction r as [|r IH]; intros c d H; [apply skips_nil|]. cbn [tex_rows]. rewrite !chars_app.
    rewrite <- (firstn_skipn c d) in H. apply Forall_app in H. destruct H as [H1 H2].
    apply skips_app; [now apply skips_row|]. apply skips_app; [apply skips_lit; reflexivity|].
    apply skips_app; [apply skips_lit; reflexivity|now apply IH].
  Qed.

  Lemma skips_txt e : good e -> skips (txt e).
  Proof.
    induction e as [c| |x| | | |r c d|o a IHa b IHb|o a IHa]; intros (Hn & Hc & Hm); cbn [names literals matrices] in Hn, Hc, Hm.
    - destruct Hc as [[Hc|(s & Es & Hc)] _]; unfold txt; cbn [TeXSer.tex].
      + apply skips_word, (numeral_word _ Hc).
      + rewrite Es. apply (skips_app ["-"%char]); [now apply skips_char|]. apply skips_word, (numeral_word _ Hc).
    - unfold txt. cbn [TeXSer.tex]. destruct (to_img opts); apply skips_lit; reflexivity.
    - apply skips_word, name_word, Hn.
    - apply skips_lit. reflexivity.
    - apply skips_lit. reflexivity.
    - apply skips_lit. reflexivity.
    - rewrite txt_mat. apply (skips_app (chars "\begin" ++ "{"%char :: chars "bmatrix" ++ "}"%char :: [])).
      { apply skips_group; [apply skips_lit; reflexivity|reflexivity|apply skips_nil]. }
      apply skips_app; [apply skips_lit; reflexivity|]. apply skips_app; [now apply skips_rows|].
      apply (skips_app (chars "\end" ++ "{"%char :: chars "bmatrix" ++ "}"%char :: [])).
      { apply skips_group; [apply skips_lit; reflexivity|reflexivity|apply skips_nil]. }
      apply skips_lit. reflexivity.
    - assert (Ha : skips (txt a)) by (apply IHa; split; [|split]; apply Hn || apply Hc || apply Hm).
      assert (Hb : skips (txt b)) by (apply IHb; split; [|split]; apply Hn || apply Hc || apply Hm).
      rewrite txt_bin. unfold bin_chars.
      assert (Arith : forall op, skips (chars "\left(" ++ txt a ++ op ++ txt b ++ chars "\right)") <-> skips (chars "\left(" ++ txt a ++ op ++ txt b ++ chars "\right)")) by reflexivity.
      destruct o.
      1-3: destruct (to_spacing opts); (apply skips_around; [exact Ha|reflexivity|]; apply skips_around; [exact Hb|reflexivity|]; apply skips_lit; reflexivity).
      + destruct (to_div opts).
        * change (skips (chars "\left(\frac" ++ "{"%char :: txt a ++ "}"%char :: ([] ++ "{"%char :: txt b ++ "}"%char :: chars "\right)"))).
          apply skips_group; [exact Ha|reflexivity|]. apply skips_group; [exact Hb|reflexivity|]. apply skips_lit; reflexivity.
        * change (skips (chars "\left(" ++ "{"%char :: txt a ++ "}"%char :: (chars "\div" ++ "{"%char :: txt b ++ "}"%char :: chars "\right)"))).
          apply skips_group; [exact Ha|reflexivity|]. apply skips_group; [exact Hb|reflexivity|]. apply skips_lit; reflexivity.
      + change (skips (chars "\left(" ++ txt a ++ (chars "\right)^" ++ "{"%char :: txt b ++ "}"%char :: []))).
        apply skips_around; [exact Ha|reflexivity|]. apply skips_group; [exact Hb|reflexivity|]. apply skips_nil.
      + change (skips (chars "\log_" ++ "{"%char :: txt a ++ "}"%char :: (chars "\left(" ++ txt b ++ chars "\right)"))).
        apply skips_group; [exact Ha|reflexivity|]. apply skips_around; [exact Hb|reflexivity|]. apply skips_lit; reflexivity.
      + change (skips (chars "\frac" ++ "{"%char :: ["d"%char] ++ "}"%char ::
                       ([] ++ "{"%char :: ("d"%char :: txt a) ++ "}"%char :: (chars "\left(" ++ txt b ++ chars "\right)")))).
        apply skips_group; [now apply skips_char|reflexivity|]. apply skips_group; [|reflexivity|].
        * apply (skips_app ["d"%char]); [now apply skips_char|exact Ha].
        * apply skips_around; [exact Hb|reflexivity|]. apply skips_lit; reflexivity.
      + apply skips_around; [exact Ha|reflexivity|]. apply skips_app; [apply skips_lit; reflexivity|exact Hb].
    - assert (Ha : skips (txt a)) by (apply IHa; split; [|split]; assumption).
      rewrite txt_un. destruct o; (apply skips_around; [exact Ha|reflexivity|]; apply skips_lit; reflexivity).
  Qed.

  Ltac flat H := unfold bin_chars, un_chars in H; rewrite <- ?app_assoc in H; cbn [chars app] in H; rewrite <- ?app_assoc in H; cbn [app] in H.

  (** No expression starts like a fraction that is not a derivative, or with a brace. *)
  Lemma frac_no_expr e a b t r : good e -> skips a -> skips b ->
    chars "\frac{" ++ a ++ chars "}{" ++ b ++ chars "}\right)" ++ t = txt e ++ r -> False.
  Proof.
    intros He Ha Hb E. assert (Hg := He). destruct He as (Hn & Hc & Hm).
    destruct e as [c| |x| | | |rr c d|o p q|o p].
    - unfold txt in E. cbn [TeXSer.tex] in E. destruct Hc as [[(c0 & l & E0 & H0 & _)|(s & Es & _)] _].
      + rewrite E0 in E. cbn in E. injection E as <- _. discriminate.
      + rewrite Es in E. discriminate.
    - unfold txt in E. cbn [TeXSer.tex] in E. destruct (to_img opts); discriminate.
    - destruct Hn as ((c0 & l & E0 & H0 & _) & _). unfold txt in E. cbn [TeXSer.tex] in E. rewrite E0 in E.
      cbn in E. injection E as <- _. discriminate.
    - discriminate.
    - discriminate.
    - discriminate.
    - rewrite txt_mat in E. discriminate.
    - rewrite txt_bin in E. unfold bin_chars in E. destruct o; [destruct (to_spacing opts); discriminate..| | | | |];
        try discriminate; try (destruct (to_div opts); discriminate).
      flat E. injection E as E. apply (skips_split a ["d"%char]) in E; [|exact Ha|now apply skips_char].
      destruct E as [_ E]. injection E as E. apply (skips_split b ("d"%char :: txt p)) in E; [|exact Hb|].
      + destruct E as [_ E]. discriminate.
      + apply (skips_app ["d"%char]); [now apply skips_char|]. apply skips_txt.
        split; [|split]; cbn in Hn, Hc, Hm; tauto.
    - rewrite txt_un in E. destruct o; discriminate.
  Qed.
  Lemma brace_no_expr e a r : good e -> "{"%char :: a = txt e ++ r -> False.
  Proof.
    intros He E. destruct He as (Hn & Hc & Hm).
    destruct e as [c| |x| | | |rr c d|o p q|o p].
    - unfold txt in E. cbn [TeXSer.tex] in E. destruct Hc as [[(c0 & l & E0 & H0 & _)|(s & Es & _)] _].
      + rewrite E0 in E. cbn in E. injection E as <- _. discriminate.
      + rewrite Es in E. discriminate.
    - unfold txt in E. cbn [TeXSer.tex] in E. destruct (to_img opts); discriminate.
    - destruct Hn as ((c0 & l & E0 & H0 & _) & _). unfold txt in E. cbn [TeXSer.tex] in E. rewrite E0 in E.
      cbn in E. injection E as <- _. discriminate.
    - discriminate.
    - discriminate.
    - discriminate.
    - rewrite txt_mat in E. discriminate.
    - rewrite txt_bin in E. unfold bin_chars in E. destruct o; [destruct (to_spacing opts); discriminate..| | | | |];
        try discriminate; try (destruct (to_div opts); discriminate).
    - rewrite txt_un in E. destruct o; discriminate.
  Qed.

  Lemma wordlike_dec e : good e -> wordlike e \/ ~ wordlike e /\
    (forall w t t', is_word w -> stop t -> stop t' -> txt e ++ t' = w ++ t -> False).
  Proof.
    intros He. assert (Hd : wordlike e \/ ~ wordlike e).
    { destruct e; cbn; auto. destruct He as (_ & [[H|H] _] & _); [auto|].
      right. intros (c0 & l & E0 & H0 & _). destruct H as (s & Es & _). rewrite Es in E0. cbn in E0.
      injection E0 as <- _. discriminate. }
    destruct Hd as [H|H]; [auto|]. right. split; [exact H|]. intros w t t' Hw Ht Ht' E.
    destruct (word_vs e w t t' He Hw Ht Ht' E) as [E1 _]. apply H, word_wordlike; [exact He|]. now rewrite E1.
  Qed.

  (** Matrices. *)
  Lemma entry_split c c' t t' : good_entry c -> good_entry c' ->
    match t with [] => True | x :: _ => word_char x = false end -> match t' with [] => True | x :: _ => word_char x = false end ->
    chars (fmt 5 c) ++ t = chars (fmt 5 c') ++ t' -> c = c' /\ t = t'.
  Proof.
    intros [P _] [P' I'] Ht Ht' E. assert (K : fmt 5 c = fmt 5 c' /\ t = t').
    { assert (Minus : forall s s' u u', numeral s -> chars s ++ u = "-"%char :: chars s' ++ u' -> False).
      { intros s s' u u' (c0 & l & E0 & H0 & _) H. rewrite E0 in H. injection H as -> _. discriminate. }
      destruct P as [P|(s & Es & P)], P' as [P'|(s' & Es' & P')].
      - apply word_split in E; [|apply (numeral_word _ P)|apply (numeral_word _ P')|exact Ht|exact Ht'].
        destruct E as [E ->]. split; [now apply chars_inj|reflexivity].
      - exfalso. rewrite Es' in E. exact (Minus _ _ _ _ P E).
      - exfalso. rewrite Es in E. symmetry in E. exact (Minus _ _ _ _ P' E).
      - rewrite Es, Es' in E. cbn [chars app] in E. injection E as E.
        apply word_split in E; [|apply (numeral_word _ P)|apply (numeral_word _ P')|exact Ht|exact Ht'].
        destruct E as [E ->]. split; [|reflexivity]. rewrite Es, Es'. f_equal. now apply chars_inj. }
    destruct K as [K ->]. split; [now apply I'|reflexivity].
  Qed.
  Lemma entry_start c : good_entry c -> exists x l, chars (fmt 5 c) = x :: l /\ x <> bslash.
  Proof.
    intros [[(x & l & E & H & _)|(s & E & _)] _]; [exists x, l; split; [exact E|now intros ->]|]. rewrite E. eexists _, _. split; [reflexivity|discriminate].
  Qed.
  Lemma row_cons x l t : chars (tex_row fmt (x :: l)) ++ bslash :: t =
    chars (fmt 5 x) ++ match l with [] => bslash :: t | _ => "&"%char :: chars (tex_row fmt l) ++ bslash :: t end.
  Proof. cbn [tex_row]. destruct l as [|y l]; [reflexivity|]. rewrite !chars_app, <- !app_assoc. reflexivity. Qed.
  Lemma row_split l : forall l' t t', Forall good_entry l -> Forall good_entry l' ->
    chars (tex_row fmt l) ++ bslash :: t = chars (tex_row fmt l') ++ bslash :: t' -> l = l' /\ t = t'.
  Proof.
    induction l as [|x l IH]; intros [|x' l'] t t' H H' E.
    - cbn in E. injection E as ->. auto.
    - exfalso. rewrite row_cons in E. inversion H' as [|? ? Hx _]; subst. destruct (entry_start _ Hx) as (c & r & Ec & Hc).
      rewrite Ec in E. cbn in E. injection E as E _. now apply Hc.
    - exfalso. rewrite row_cons in E. inversion H as [|? ? Hx _]; subst. destruct (entry_start _ Hx) as (c & r & Ec & Hc).
      rewrite Ec in E. cbn in E. injection E as E _. now apply Hc.
    - rewrite !row_cons in E. inversion H as [|? ? Hx Hl]; subst. inversion H' as [|? ? Hx' Hl']; subst.
      apply entry_split in E; [|exact Hx|exact Hx'|now destruct l|now destruct l']. destruct E as [<- E].
      destruct l as [|y l], l' as [|y' l']; try discriminate E.
      + injection E as ->. auto.
      + injection E as E. destruct (IH (y' :: l') t t' Hl Hl' E) as [<- <-]. auto.
  Qed.
  Lemma rows_split r : forall r' c c' d d' t t', Forall good_entry d -> Forall good_entry d' ->
    length d = r * c -> length d' = r' * c' ->
    chars (tex_rows fmt r c d) ++ chars "\end" ++ t = chars (tex_rows fmt r' c' d') ++ chars "\end" ++ t' ->
    r = r' /\ (0 < r -> c = c') /\ d = d' /\ t = t'.
  Proof.
    assert (Start : forall l t u, Forall good_entry l -> chars "\end" ++ u = chars (tex_row fmt l) ++ chars "\\" ++ t -> False).
    { intros [|x l] t u H E; [discriminate|]. change (chars "\\" ++ t) with (bslash :: bslash :: t) in E. rewrite row_cons in E.
      inversion H as [|? ? Hx _]; subst. destruct (entry_start _ Hx) as (c & rr & Ec & Hc). rewrite Ec in E. cbn in E. injection E as E _. now apply Hc. }
    induction r as [|r IH]; intros [|r'] c c' d d' t t' H H' L L' E; cbn [tex_rows] in E.
    - cbn in E. injection E as ->. destruct d, d'; try discriminate. repeat split. intros K; inversion K.
    - exfalso. rewrite !chars_app, <- !app_assoc in E. eapply (Start (firstn c' d')); [|exact E].
      rewrite <- (firstn_skipn c' d') in H'. apply Forall_app in H'. apply H'.
    - exfalso. rewrite !chars_app, <- !app_assoc in E. symmetry in E. eapply (Start (firstn c d)); [|exact E].
      rewrite <- (firstn_skipn c d) in H. apply Forall_app in H. apply H.
    - rewrite !chars_app, <- !app_assoc in E. rewrite <- (firstn_skipn c d) in H. rewrite <- (firstn_skipn c' d') in H'.
      apply Forall_app in H, H'. destruct H as [H1 H2], H' as [H1' H2'].
      change (chars "\\") with [bslash; bslash] in E. cbn [app] in E. apply row_split in E; [|exact H1|exact H1']. destruct E as [E1 E].
      injection E as E. assert (Hc : c = c').
      { apply (f_equal (@length _)) in E1. rewrite !firstn_length in E1. cbn in L, L'. lia. }
      subst c'. apply IH in E; [|exact H2|exact H2'|rewrite skipn_length, L; cbn; lia|rewrite skipn_length, L'; cbn; lia].
      destruct E as (-> & _ & E2 & ->). split; [reflexivity|]. split; [auto|]. split; [|reflexivity].
      rewrite <- (firstn_skipn c d), <- (firstn_skipn c d'). congruence.
  Qed.

  Lemma txt_unique e : forall e' t t', good e -> good e' -> stop t -> stop t' ->
    txt e ++ t = txt e' ++ t' -> e = e' /\ t = t'.
  Proof.
    induction e as [c| |x| | | |r c d|o a IHa b IHb|o a IHa]; intros e' t t' He He' Ht Ht' E.
    all: destruct (wordlike_dec e' He') as [Hw'|[Hw' Hv']].
    all: try (destruct (word_vs _ _ _ _ He (wordlike_word _ He' Hw') Ht' Ht E) as [E1 E2]; split; [|exact E2];
         apply wordlike_inj; auto; apply word_wordlike; [exact He|]; rewrite E1; now apply wordlike_word).
    all: match goal with |- ?e = _ /\ _ => destruct (wordlike_dec e He) as [Hw|[Hw Hv]] end; [exfalso; eapply Hv'; [apply (wordlike_word _ He Hw)|exact Ht|exact Ht'|symmetry; exact E]|].
    - (* a negative number *)
      assert (Hs : exists s, fmt (to_places opts + 1) c = String "-" s /\ numeral s).
      { destruct He as (_ & [[H|H] _] & _); [contradiction|exact H]. }
      destruct Hs as (s & Es & Hs). unfold txt in E at 1. cbn [TeXSer.tex] in E. rewrite Es in E. cbn [chars app] in E.
      destruct e' as [c'| |x'| | | |r' k' d'|o' a' b'|o' a']; try (exfalso; exact (Hw' I)).
      + assert (Hs' : exists s, fmt (to_places opts + 1) c' = String "-" s /\ numeral s).
        { destruct He' as (_ & [[H|H] _] & _); [contradiction|exact H]. }
        destruct Hs' as (s' & Es' & Hs'). unfold txt in E. cbn [TeXSer.tex] in E. rewrite Es' in E. cbn [chars app] in E.
        injection E as E.
        apply word_split in E; [|apply (numeral_word _ Hs)|apply (numeral_word _ Hs')|now apply stop_word|now apply stop_word].
        destruct E as [E ->]. split; [|reflexivity]. f_equal. apply He'. rewrite Es, Es'. f_equal. now apply chars_inj.
      + exfalso. discriminate E.
      + exfalso. rewrite txt_mat in E. discriminate E.
      + exfalso. rewrite txt_bin in E. unfold bin_chars in E. destruct o', (to_spacing opts), (to_div opts); discriminate.
      + exfalso. rewrite txt_un in E. destruct o'; try discriminate.
        destruct Hs as (c0 & l & E0 & H0 & _). rewrite E0 in E. cbn in E. injection E as -> _. discriminate.
    - exfalso. now apply Hw.
    - exfalso. now apply Hw.
    - exfalso. now apply Hw.
    - exfalso. now apply Hw.
    - destruct e' as [c'| |x'| | | |r' k' d'|o' a' b'|o' a']; try (exfalso; exact (Hw' I)).
      + exfalso. assert (Hs' : exists s, fmt (to_places opts + 1) c' = String "-" s /\ numeral s).
        { destruct He' as (_ & [[H|H] _] & _); [contradiction|exact H]. }
        destruct Hs' as (s' & Es' & _). unfold txt in E. cbn [TeXSer.tex] in E. rewrite Es' in E. discriminate.
      + split; [reflexivity|]. cbn in E. now injection E.
      + exfalso. rewrite txt_mat in E. discriminate E.
      + exfalso. rewrite txt_bin in E. unfold bin_chars in E. destruct o', (to_spacing opts), (to_div opts); discriminate.
      + exfalso. rewrite txt_un in E. destruct o'; discriminate.
    - rewrite txt_mat in E. destruct e' as [c'| |x'| | | |r' k' d'|o' a' b'|o' a']; try (exfalso; exact (Hw' I)).
      + exfalso. assert (Hs' : exists s, fmt (to_places opts + 1) c' = String "-" s /\ numeral s).
        { destruct He' as (_ & [[H|H] _] & _); [contradiction|exact H]. }
        destruct Hs' as (s' & Es' & _). unfold txt in E. cbn [TeXSer.tex] in E. rewrite Es' in E. discriminate.
      + exfalso. discriminate E.
      + rewrite txt_mat in E. rewrite <- !app_assoc in E. apply app_inv_head, app_inv_head in E.
        change (chars "\end{bmatrix}") with (chars "\end" ++ chars "{bmatrix}") in E. rewrite <- !app_assoc in E.
        destruct He as (_ & _ & R & L & G), He' as (_ & _ & R' & L' & G').
        apply rows_split in E; try assumption. destruct E as (<- & K & <- & E).
        assert (Hk : c = k') by (destruct r; [rewrite R, R' by reflexivity; reflexivity|apply K; lia]). rewrite Hk.
        split; [reflexivity|]. now apply app_inv_head, app_inv_head in E.
      + exfalso. rewrite txt_bin in E. unfold bin_chars in E. destruct o', (to_spacing opts), (to_div opts); discriminate.
      + exfalso. rewrite txt_un in E. destruct o'; discriminate.
    - assert (Ga : good a) by (split; [|split]; apply He).
      assert (Gb : good b) by (split; [|split]; apply He).
      rewrite txt_bin in E.
      destruct e' as [c'| |x'| | | |r' k' d'|o' a' b'|o' a']; try (exfalso; exact (Hw' I)).
      + exfalso. assert (Hs' : exists s, fmt (to_places opts + 1) c' = String "-" s /\ numeral s).
        { destruct He' as (_ & [[H|H] _] & _); [contradiction|exact H]. }
        destruct Hs' as (s' & Es' & _). unfold txt in E at 3. cbn [TeXSer.tex] in E. rewrite Es' in E.
        unfold bin_chars in E. destruct o, (to_spacing opts), (to_div opts); discriminate.
      + exfalso. unfold bin_chars in E. destruct o, (to_spacing opts), (to_div opts); discriminate.
      + exfalso. rewrite txt_mat in E. unfold bin_chars in E. destruct o, (to_spacing opts), (to_div opts); discriminate.
      + assert (Ga' : good a') by (split; [|split]; apply He').
        assert (Gb' : good b') by (split; [|split]; apply He').
        rewrite txt_bin in E. clear Hw Hw' Hv Hv'.
        (* a fraction against another operator *)
        assert (Fr : forall p q u v r, good p -> good q -> good v ->
          chars "\left(\frac{" ++ txt p ++ chars "}{" ++ txt q ++ chars "}\right)" ++ u = chars "\left(" ++ txt v ++ r -> False).
        { intros p q u v r Gp Gq Gv H. change (chars "\left(\frac{") with (chars "\left(" ++ chars "\frac{") in H.
          rewrite <- app_assoc in H. apply app_inv_head in H. eapply frac_no_expr; [exact Gv|..|exact H]; now apply skips_txt. }
        assert (Dv : forall p u v r, good v ->
          chars "\left({" ++ p ++ u = chars "\left(" ++ txt v ++ r -> False).
        { intros p u v r Gv H. change (chars "\left({") with (chars "\left(" ++ chars "{") in H.
          rewrite <- app_assoc in H. apply app_inv_head in H. eapply brace_no_expr; [exact Gv|exact H]. }
        unfold bin_chars in E.
        destruct (to_spacing opts), (to_div opts), o, o'; cbv beta iota zeta in E; rewrite <- !app_assoc in E;
          try (exfalso; discriminate E);
          try (exfalso; eapply (Fr a b); [exact Ga|exact Gb|exact Ga'|exact E]);
          try (exfalso; eapply (Fr a' b'); [exact Ga'|exact Gb'|exact Ga|symmetry; exact E]);
          try (exfalso; eapply Dv; [exact Ga'|exact E]);
          try (exfalso; eapply Dv; [exact Ga|symmetry; exact E]);
          apply app_inv_head in E;
          (apply IHa in E; [|assumption|assumption|exact I|exact I]); destruct E as [<- E];
          try (exfalso; discriminate E);
          apply app_inv_head in E;
          (apply IHb in E; [|assumption|assumption|exact I || assumption|exact I || assumption]); destruct E as [<- E];
          (split; [reflexivity|]); try (apply app_inv_head in E); exact E.
      + exfalso. rewrite txt_un in E. unfold bin_chars in E.
        destruct o, (to_spacing opts), (to_div opts), o'; discriminate.
    - assert (Ga : good a) by (split; [|split]; apply He).
      rewrite txt_un in E.
      destruct e' as [c'| |x'| | | |r' k' d'|o' a' b'|o' a']; try (exfalso; exact (Hw' I)).
      + exfalso. assert (Hs' : exists s, fmt (to_places opts + 1) c' = String "-" s /\ numeral s).
        { destruct He' as (_ & [[H|H] _] & _); [contradiction|exact H]. }
        destruct Hs' as (s' & Es' & Hs'). unfold txt in E at 2. cbn [TeXSer.tex] in E. rewrite Es' in E.
        destruct o; try discriminate. destruct Hs' as (c0 & l & E0 & H0 & _).
        cbn [un_chars] in E. rewrite <- app_assoc in E. cbn [chars app] in E. rewrite E0 in E. injection E as <- _. discriminate.
      + exfalso. destruct o; discriminate.
      + exfalso. rewrite txt_mat in E. destruct o; discriminate.
      + exfalso. rewrite txt_bin in E. unfold bin_chars in E. destruct o, o', (to_spacing opts), (to_div opts); discriminate.
      + assert (Ga' : good a') by (split; [|split]; apply He').
        rewrite txt_un in E. unfold un_chars in E.
        destruct o, o'; rewrite <- !app_assoc in E; try (exfalso; discriminate E); apply app_inv_head in E;
          (apply IHa in E; [|assumption|assumption|exact I|exact I]); destruct E as [<- E];
          (split; [reflexivity|]); apply app_inv_head in E; exact E.
  Qed.

  Lemma tex_unique e e' : good e -> good e' -> tex e = tex e' -> e = e'.
  Proof.
    intros He He' E. apply (txt_unique e e' [] []); auto; try exact I. unfold txt. now rewrite E.
  Qed.

  Lemma tex_no_columns e : tex (no_columns e) = tex e.
  Proof.
    induction e as [| | | | | |r c d|o p IHp q IHq|o p IHp]; try reflexivity.
    - now destruct r.
    - cbn [no_columns TeXSer.tex]. now rewrite IHp, IHq.
    - cbn [no_columns TeXSer.tex]. now rewrite IHp.
  Qed.
  Lemma no_columns_good (e : expr) : names good_name e -> literals good_number e ->
    matrices (fun r c d => length d = r * c /\ Forall good_entry d) e -> good (no_columns e).
  Proof.
    induction e as [| | | | | |r c d|o p IHp q IHq|o p IHp]; try (unfold good; cbn; tauto).
    - intros _ _ [L G]. destruct r; (split; [exact I|split; [exact I|]]); cbn [no_columns matrices]; repeat split; auto; lia.
    - cbn [names literals matrices]. intros [] [] []. destruct IHp as (? & ? & ?), IHq as (? & ? & ?); auto. repeat split; auto.
    - cbn [names literals matrices]. intros. destruct IHp as (? & ? & ?); auto. repeat split; auto.
  Qed.
End TeX.
