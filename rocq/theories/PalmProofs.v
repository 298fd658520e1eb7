(** Facts about the PALM parser. *)
From Coq Require Import String Ascii Bool Arith ZArith QArith Reals Lia.
From Coquelicot Require Import Coquelicot.
From Coq Require Import List.
From Verif Require Import Base Num Expr Spec SpecText TreeProofs SemProofs FromInFix InFixProofs FromPALM QNum PropertiesTree.
Import ListNotations.
Open Scope string_scope.
Open Scope nat_scope.
Open Scope list_scope.
Open Scope m_scope.

(** ** The stream *)

Definition tk (l : stream) : list string := map string_of_list_ascii (words l).
Fixpoint ends_blank (l : stream) : bool :=
  match l with
  | [] => false
  | [c] => is_space c
  | _ :: l => ends_blank l
  end.

Lemma ends_blank_app w l : l <> [] -> ends_blank (w ++ l) = ends_blank l.
Proof.
  intros H. induction w as [|c w IH]; [reflexivity|]. cbn [app].
  destruct (w ++ l) as [|d r] eqn:E; [|exact IH]. apply app_eq_nil in E. tauto.
Qed.
Lemma ends_blank_word w : (forall c, In c w -> is_space c = false) -> ends_blank w = false.
Proof.
  induction w as [|c w IH]; intros H; [reflexivity|]. destruct w as [|d w].
  - apply H. now left.
  - apply IH. intros x Hx. apply H. now right.
Qed.

Lemma take_word_spec w l : (forall c, In c w -> is_space c = false) ->
  match l with [] => True | c :: _ => is_space c = true end ->
  take_word (w ++ l) = (w, l).
Proof.
  intros Hw Hl. induction w as [|c w IH]; cbn.
  - destruct l as [|c l]; cbn; [reflexivity|]. now rewrite Hl.
  - rewrite (Hw c (or_introl eq_refl)). rewrite IH; [reflexivity|]. intros x Hx. apply Hw. now right.
Qed.

Lemma pop_splits l ws : splits l ws ->
  match ws with
  | [] => pop l = ("", [])
  | w :: ws => exists r, pop l = (string_of_list_ascii w, r) /\ words r = ws /\ ends_blank r = ends_blank l /\ w <> []
  end.
Proof.
  induction 1 as [|c l ws Hc Hs IH|w l ws Hn Hw Hl Hs IH].
  - reflexivity.
  - apply is_space_blank in Hc.
    assert (E : pop (c :: l) = pop l) by (unfold pop; cbn [skip_space]; now rewrite Hc).
    destruct ws as [|w ws].
    + now rewrite E.
    + destruct IH as (r & H1 & H2 & H3 & H4). exists r. rewrite E. split; [exact H1|]. split; [exact H2|]. split; [|exact H4].
      rewrite H3. destruct l; [|reflexivity]. apply splits_words in Hs. discriminate.
  - assert (Hw' : forall c, In c w -> is_space c = false).
    { intros c Hc. apply not_true_iff_false. rewrite is_space_blank. auto. }
    assert (Hl' : match l with [] => True | c :: _ => is_space c = true end)
      by (destruct l; [exact I|now apply is_space_blank]).
    exists l. split; [|split; [|split]].
    + unfold pop. destruct w as [|c w]; [congruence|]. cbn [app skip_space].
      rewrite (Hw' c (or_introl eq_refl)). change (c :: w ++ l) with ((c :: w) ++ l).
      now rewrite take_word_spec.
    + now apply splits_words.
    + destruct l as [|d l]; [|now rewrite ends_blank_app].
      rewrite app_nil_r. now rewrite (ends_blank_word w).
    + exact Hn.
Qed.

Lemma pop_nil l : tk l = [] -> pop l = ("", []).
Proof. intros H. unfold tk in H. apply map_eq_nil in H. assert (P := pop_splits _ _ (words_split l)). now rewrite H in P. Qed.
Lemma pop_cons l t ts : tk l = t :: ts ->
  exists r, pop l = (t, r) /\ tk r = ts /\ ends_blank r = ends_blank l /\ t <> "".
Proof.
  intros H. unfold tk in H. assert (P := pop_splits _ _ (words_split l)).
  destruct (words l) as [|w ws] eqn:E; [discriminate|]. injection H as <- <-.
  destruct P as (r & H1 & H2 & H3 & H4). exists r. split; [exact H1|]. split; [unfold tk; now rewrite H2|].
  split; [exact H3|]. destruct w; [congruence|discriminate].
Qed.
Lemma tk_nil r : tk r = [] -> ends_blank r = false -> r = [].
Proof.
  unfold tk. intros H Hb. apply map_eq_nil in H.
  induction r as [|c r IH]; [reflexivity|]. exfalso.
  destruct (is_space c) eqn:Hc.
  - rewrite words_space in H by exact Hc. destruct r as [|d r]; [cbn in Hb; congruence|].
    cbn [ends_blank] in Hb. specialize (IH H Hb). discriminate.
  - assert (S := words_split (c :: r)). rewrite H in S. inversion S; subst.
    match goal with H : blank c |- _ => apply is_space_blank in H; congruence end.
Qed.

(** Streams the parser cannot tell apart. *)
Definition alike (l l' : stream) : Prop := tk l = tk l' /\ ends_blank l = ends_blank l'.
Lemma alike_refl l : alike l l.
Proof. now split. Qed.
Lemma alike_pop l l' : alike l l' -> fst (pop l) = fst (pop l') /\ alike (snd (pop l)) (snd (pop l')).
Proof.
  intros [H1 H2]. destruct (tk l) as [|t ts] eqn:E.
  - rewrite (pop_nil l), (pop_nil l') by congruence. split; [reflexivity|apply alike_refl].
  - destruct (pop_cons l t ts E) as (r & P1 & P2 & P3 & _).
    destruct (pop_cons l' t ts) as (r' & Q1 & Q2 & Q3 & _); [congruence|].
    rewrite P1, Q1. cbn. split; [reflexivity|]. split; congruence.
Qed.
Lemma alike_peek l l' : alike l l' -> peek l = peek l'.
Proof. intros H. apply (alike_pop _ _ H). Qed.
(** What a [pop] takes. *)
Lemma pop_takes l : exists ts, tk l = (ts ++ tk (snd (pop l))) /\ length ts <= 1
  /\ (fst (pop l) <> "" -> ts = [fst (pop l)]).
Proof.
  destruct (tk l) as [|t ts] eqn:E.
  - rewrite (pop_nil l E). exists []. cbn [fst snd app length]. split; [reflexivity|]. split; [lia|]. congruence.
  - destruct (pop_cons l t ts E) as (r & P1 & P2 & P3 & _). rewrite P1. cbn [fst snd]. exists [t]. rewrite P2. auto.
Qed.

Lemma sub_nil us : subwords [] us.
Proof. induction us; [apply sub_end|now apply sub_skip]. Qed.
Lemma sub_refl us : subwords us us.
Proof. induction us; [apply sub_end|now apply sub_keep]. Qed.
Lemma sub_app a b c d : subwords a b -> subwords c d -> subwords (a ++ c) (b ++ d).
Proof. induction 1; cbn; intros; [assumption|apply sub_keep|apply sub_skip]; auto. Qed.
Lemma sub_length a b : subwords a b -> length a <= length b.
Proof. induction 1; cbn; lia. Qed.

Section Parser.
  Context {num : Type}.
  Notation expr := (expr num).
  Variable stod : string -> option num.
  Notation palm := (palm stod).
  Notation palms := (palms stod).
  Notation parse_expr := (parse_expr stod).
  Notation operation := (operation stod).

  Lemma bindr {A B} (a : A) (k : A -> M B) : bind (ret a) k = k a.
  Proof. unfold bind, ret. now destruct (k a). Qed.

  Lemma right_heavy_nested o es (e : expr) : right_nested o es e -> right_heavy o es = Some e.
  Proof.
    induction 1 as [a b|a l r H IH]; [reflexivity|]. cbn. destruct l; [inversion H|]. now rewrite IH.
  Qed.
  Lemma right_heavy_spec o (es : list expr) : 2 <= length es -> exists e, right_heavy o es = Some e /\ right_nested o es e.
  Proof.
    induction es as [|a es IH]; cbn; [lia|]. destruct es as [|b es]; [cbn; lia|]. intros _.
    destruct es as [|c es].
    - exists (EBin o a b). split; [reflexivity|constructor].
    - destruct IH as (r & H1 & H2); [cbn; lia|]. rewrite H1. exists (EBin o a r). split; [reflexivity|now constructor].
  Qed.

  Lemma palm_head ts e : palm ts e -> exists us, ts = "(" :: us.
  Proof. intros H. inversion H; eauto. Qed.
  Lemma right_nested_two o es (e : expr) : right_nested o es e -> 2 <= length es.
  Proof. induction 1; cbn; lia. Qed.
  Lemma build_two o es (e : expr) : build o es = Some e -> 2 <= length es.
  Proof. destruct es as [|a [|b es]]; cbn; try discriminate. lia. Qed.
  Lemma palms_length ts es : palms ts es -> length es <= length ts.
  Proof.
    induction 1 as [|ts e us es H _ IH]; [auto|]. destruct (palm_head _ _ H) as [vs ->].
    cbn. rewrite app_length. lia.
  Qed.

  Scheme palm_mut := Minimality for SpecText.palm Sort Prop
    with palms_mut := Minimality for SpecText.palms Sort Prop.

  Definition reads (ts : list string) (e : expr) : Prop :=
    forall n l us, length ts < n -> tk l = (ts ++ us) ->
    exists r, parse_expr n l = ret (inl e, r) /\ tk r = us /\ ends_blank r = ends_blank l.
  Definition reads_all (ts : list string) (es : list expr) : Prop :=
    forall n k l us, length ts < n -> length ts < k -> tk l = (ts ++ ")" :: us) ->
    exists r, elements (parse_expr n) k l = ret (es, r) /\ tk r = ")" :: us /\ ends_blank r = ends_blank l.

  Lemma peek_cons l t ts : tk l = t :: ts -> peek l = t.
  Proof. intros H. destruct (pop_cons _ _ _ H) as (r & P & _). unfold peek. now rewrite P. Qed.

  (** An expression is read when its operation is. *)
  Lemma reads_expr s ts e :
    (forall n l us, length ts < n -> tk l = (s :: ts ++ ")" :: us) ->
     exists r, operation (parse_expr n) n l = ret (inl e, r) /\ tk r = ")" :: us /\ ends_blank r = ends_blank l) ->
    reads ("(" :: s :: ts ++ [")"]) e.
  Proof.
    intros H n l us Hn Hl. destruct n as [|n]; [cbn in Hn; lia|].
    cbn [app] in Hl. rewrite <- app_assoc in Hl. cbn [app] in Hl.
    cbn [FromPALM.parse_expr]. rewrite (peek_cons _ _ _ Hl).
    destruct (pop_cons _ _ _ Hl) as (r & P & Hr & Hb & _). rewrite P. cbn [snd String.eqb Ascii.eqb Bool.eqb].
    destruct (H n r us) as (r2 & H1 & H2 & H3); [cbn in Hn; rewrite app_length in Hn; cbn in Hn; lia|exact Hr|].
    rewrite H1, bindr. destruct (pop_cons _ _ _ H2) as (r3 & P3 & Hr3 & Hb3 & _). rewrite P3.
    cbn. exists r3. split; [reflexivity|]. split; congruence.
  Qed.

  Lemma reads_binary s ts es e (combine : list expr -> option expr) :
    (forall rec k l, peek l = s -> operation rec k l = binary combine rec k l) ->
    reads_all ts es -> 2 <= length es -> combine es = Some e ->
    reads ("(" :: s :: ts ++ [")"]) e.
  Proof.
    intros Ho Ha H2 Hc. apply reads_expr. intros n l us Hn Hl.
    rewrite Ho by exact (peek_cons _ _ _ Hl).
    destruct (pop_cons _ _ _ Hl) as (r & P & Hr & Hb & _). unfold binary. rewrite P. cbn [snd].
    destruct (Ha n n r us Hn Hn Hr) as (r2 & E2 & T2 & B2).
    unfold binary_elements. rewrite E2, bindr. cbn [fst snd].
    replace (length es <? 2) with false by (symmetry; now apply Nat.ltb_ge).
    rewrite bindr, Hc. exists r2. split; [reflexivity|]. split; congruence.
  Qed.

  Lemma reads_palm ts e : palm ts e -> reads ts e.
  Proof.
    apply (palm_mut num stod reads reads_all); clear ts e.
    - intros t c Hc. apply (reads_expr "real" [t]). intros n l us _ Hl. cbn [app] in Hl.
      unfold FromPALM.operation. rewrite (peek_cons _ _ _ Hl). cbn [String.eqb Ascii.eqb Bool.eqb].
      destruct (pop_cons _ _ _ Hl) as (r & P & Hr & Hb & _). destruct (pop_cons _ _ _ Hr) as (r2 & P2 & Hr2 & Hb2 & _).
      unfold parse_real. rewrite P. cbn [snd]. rewrite P2, Hc. exists r2. split; [reflexivity|]. split; congruence.
    - apply (reads_expr "i" []). intros n l us _ Hl. cbn [app] in Hl.
      unfold FromPALM.operation. rewrite (peek_cons _ _ _ Hl). cbn [String.eqb Ascii.eqb Bool.eqb orb].
      destruct (pop_cons _ _ _ Hl) as (r & P & Hr & Hb & _). rewrite P. exists r. auto.
    - apply (reads_expr "j" []). intros n l us _ Hl. cbn [app] in Hl.
      unfold FromPALM.operation. rewrite (peek_cons _ _ _ Hl). cbn [String.eqb Ascii.eqb Bool.eqb orb].
      destruct (pop_cons _ _ _ Hl) as (r & P & Hr & Hb & _). rewrite P. exists r. auto.
    - intros x Hx1 Hx2. apply (reads_expr "var" [x]). intros n l us _ Hl. cbn [app] in Hl.
      unfold FromPALM.operation. rewrite (peek_cons _ _ _ Hl). cbn [String.eqb Ascii.eqb Bool.eqb orb].
      destruct (pop_cons _ _ _ Hl) as (r & P & Hr & Hb & _). destruct (pop_cons _ _ _ Hr) as (r2 & P2 & Hr2 & Hb2 & _).
      unfold parse_variable. rewrite P. cbn [snd]. rewrite P2.
      rewrite (proj2 (String.eqb_neq x "") Hx1), (proj2 (String.eqb_neq x ")") Hx2).
      exists r2. split; [reflexivity|]. split; congruence.
    - apply (reads_expr "pi" []). intros n l us _ Hl. cbn [app] in Hl.
      unfold FromPALM.operation. rewrite (peek_cons _ _ _ Hl). cbn [String.eqb Ascii.eqb Bool.eqb orb].
      destruct (pop_cons _ _ _ Hl) as (r & P & Hr & Hb & _). rewrite P. exists r. auto.
    - apply (reads_expr "e" []). intros n l us _ Hl. cbn [app] in Hl.
      unfold FromPALM.operation. rewrite (peek_cons _ _ _ Hl). cbn [String.eqb Ascii.eqb Bool.eqb orb].
      destruct (pop_cons _ _ _ Hl) as (r & P & Hr & Hb & _). rewrite P. exists r. auto.
    - intros ts e _ IH. apply reads_expr. intros n l us Hn Hl.
      unfold FromPALM.operation. rewrite (peek_cons _ _ _ Hl). cbn [String.eqb Ascii.eqb Bool.eqb orb].
      destruct (pop_cons _ _ _ Hl) as (r & P & Hr & Hb & _). unfold parse_negate. rewrite P. cbn [snd].
      destruct (IH n r _ Hn Hr) as (r2 & E2 & T2 & B2). rewrite E2, bindr.
      exists r2. split; [reflexivity|]. split; congruence.
    - intros s o ts es e Hs _ IH Hb. apply (reads_binary s ts es e (build o)); auto; [|exact (build_two _ _ _ Hb)].
      intros rec k l Hp. unfold FromPALM.operation. rewrite Hp. inversion Hs; subst; reflexivity.
    - intros s o ts es e Hs _ IH Hb.
      apply (reads_binary s ts es e (right_heavy o)); auto using right_heavy_nested; [|exact (right_nested_two _ _ _ Hb)].
      intros rec k l Hp. unfold FromPALM.operation. rewrite Hp. inversion Hs; subst; reflexivity.
    - intros n k l us Hn Hk Hl. destruct k as [|k]; [lia|]. cbn [elements app] in *. rewrite (peek_cons _ _ _ Hl).
      exists l. auto.
    - intros ts e us es Hp IH1 _ IH2 n k l vs Hn Hk Hl. rewrite <- app_assoc in Hl.
      destruct (palm_head _ _ Hp) as (ts' & Ets).
      assert (Hlen : length (ts ++ us) = length ts + length us) by apply app_length.
      assert (Hpos : 1 <= length ts) by (rewrite Ets; cbn; lia).
      destruct k as [|k]; [lia|]. cbn [elements].
      replace (String.eqb (peek l) ")") with false.
      2:{ rewrite Ets in Hl. cbn [app] in Hl. now rewrite (peek_cons _ _ _ Hl). }
      destruct (IH1 n l _ ltac:(lia) Hl) as (r & E & T & B). rewrite E, bindr.
      destruct (IH2 n k r _ ltac:(lia) ltac:(lia) T) as (r2 & E2 & T2 & B2). rewrite E2, bindr.
      exists r2. cbn. split; [reflexivity|]. split; congruence.
  Qed.

  Lemma from_palm_words s ts e : words_of s ts -> no_trailing_blank s -> palm ts e -> from_palm stod s = ret (inl e).
  Proof.
    intros Hw Hb Hp. assert (Ht := tokens_words _ _ Hw). unfold tokens in Ht.
    unfold from_palm. destruct (reads_palm _ _ Hp (S (length (words (list_ascii_of_string s)))) (list_ascii_of_string s) [])
      as (r & E & T & B).
    - rewrite <- Ht, map_length. lia.
    - unfold tk. rewrite Ht. now rewrite app_nil_r.
    - rewrite E, bindr. rewrite (tk_nil r T); [reflexivity|]. rewrite B.
      destruct (list_ascii_of_string s) as [|c l] eqn:El using rev_ind; [reflexivity|].
      destruct (ends_blank (l ++ [c])) eqn:Eb; [|reflexivity].
      rewrite ends_blank_app in Eb by discriminate. apply is_space_blank in Eb. exfalso. apply (Hb l c); auto.
  Qed.

  (** ** Every run *)

  (** [f] answers on [l], takes words from the front, behaves the same on
      streams that are alike, and what it returns is read from some of the
      words it took. *)
  Definition behaves {A B} (f : stream -> M (A * stream)) (good : list string -> B -> list string -> Prop) (view : A -> option B) (l : stream) : Prop :=
    exists x r ts, f l = ret (x, r) /\ tk l = (ts ++ tk r)
      /\ (forall l', alike l l' -> exists r', f l' = ret (x, r') /\ alike r r')
      /\ match view x with
         | Some e => exists ts', good ts' e (tk r) /\ subwords ts' ts
         | None => True
         end.
  Definition view_inl {A : Type} (x : A + parse_error) : option A :=
    match x with inl a => Some a | inr _ => None end.
  Definition is_palm (ts : list string) (e : expr) (_ : list string) : Prop := palm ts e.
  Definition are_palms (ts : list string) (es : list expr) (_ : list string) : Prop := palms ts es.
  (** A missing number at the very end of the text is left to [stod]. *)
  Definition op_of (ts : list string) (e : expr) (us : list string) : Prop := us = [] \/ palm ("(" :: ts ++ [")"]) e.

  Lemma behaves_elements rec m :
    (forall l, length (tk l) <= m -> behaves rec is_palm view_inl l) ->
    forall k l, length (tk l) < k -> length (tk l) <= m -> behaves (elements rec k) are_palms Some l.
  Proof.
    intros Hrec. induction k as [|k IH]; intros l Hk Hm; [lia|].
    unfold behaves. cbn [elements]. destruct (String.eqb (peek l) ")") eqn:Ep.
    - exists [], l, []. split; [reflexivity|]. split; [reflexivity|]. split.
      + intros l' Hl. rewrite <- (alike_peek _ _ Hl), Ep. exists l'. auto.
      + exists []. split; [constructor|constructor].
    - destruct (Hrec l Hm) as (x & r & ts & E & T & A & G).
      destruct x as [e|err].
      + destruct G as (ts' & Gp & Gs).
        assert (Hlen := f_equal (@length _) T). rewrite app_length in Hlen.
        assert (Hpos : 1 <= length ts).
        { destruct (palm_head _ _ Gp) as (us & ->). apply sub_length in Gs. cbn in Gs. lia. }
        destruct (IH r) as (es & r2 & ts2 & E2 & T2 & A2 & G2); [lia|lia|].
        destruct G2 as (ts2' & Gp2 & Gs2).
        exists (e :: es), r2, (ts ++ ts2). split; [|split; [|split]].
        * rewrite E, bindr, E2, bindr. reflexivity.
        * rewrite T, T2. now rewrite app_assoc.
        * intros l' Hl. rewrite <- (alike_peek _ _ Hl), Ep.
          destruct (A l' Hl) as (r' & E' & Hr'). destruct (A2 r' Hr') as (r2' & E2' & Hr2').
          exists r2'. rewrite E', bindr, E2', bindr. auto.
        * exists (ts' ++ ts2'). split; [now constructor|now apply sub_app].
      + exists [], r, ts. split; [now rewrite E, bindr|]. split; [exact T|]. split.
        * intros l' Hl. rewrite <- (alike_peek _ _ Hl), Ep. destruct (A l' Hl) as (r' & E' & Hr').
          exists r'. rewrite E', bindr. auto.
        * exists []. split; [constructor|apply sub_nil].
  Qed.

  Lemma snd_pop_length l : length (tk (snd (pop l))) <= length (tk l).
  Proof. destruct (pop_takes l) as (ts & H & _). rewrite H, app_length. lia. Qed.

  Lemma behaves_binary rec m s combine :
    s <> "" ->
    (forall l, length (tk l) <= m -> behaves rec is_palm view_inl l) ->
    (forall es, 2 <= length es -> exists e, combine es = Some e /\ forall ts, palms ts es -> palm ("(" :: (s :: ts) ++ [")"]) e) ->
    forall k l, length (tk l) < k -> length (tk l) <= m -> peek l = s ->
    behaves (binary combine rec k) op_of view_inl l.
  Proof.
    intros Hs0 Hrec Hc k l Hk Hm Hs. assert (Hle := snd_pop_length l).
    destruct (pop_takes l) as (t0 & T0 & _ & Ht0). specialize (Ht0 ltac:(unfold peek in Hs; congruence)).
    destruct (behaves_elements rec m Hrec k (snd (pop l))) as (es & r & ts & E & T & A & ts' & Gp & Gs); [lia|lia|].
    unfold behaves, binary, binary_elements.
    destruct (length es <? 2) eqn:El.
    - exists (inr IncompleteExpression), r, (t0 ++ ts). split; [|split; [|split; [|exact I]]].
      + rewrite E, bindr. cbn [fst snd]. rewrite El. reflexivity.
      + rewrite T0 at 1. rewrite T. now rewrite app_assoc.
      + intros l' Hl. destruct (A (snd (pop l')) (proj2 (alike_pop _ _ Hl))) as (r' & E' & Hr').
        exists r'. rewrite E', bindr. cbn [fst snd]. rewrite El. auto.
    - apply Nat.ltb_ge in El. destruct (Hc es El) as (e & He & Hg). apply Nat.ltb_ge in El.
      exists (inl e), r, (t0 ++ ts). split; [|split; [|split]].
      + rewrite E, bindr. cbn [fst snd]. rewrite El, bindr, He. reflexivity.
      + rewrite T0 at 1. rewrite T. now rewrite app_assoc.
      + intros l' Hl. destruct (A (snd (pop l')) (proj2 (alike_pop _ _ Hl))) as (r' & E' & Hr').
        exists r'. rewrite E', bindr. cbn [fst snd]. rewrite El, bindr, He. auto.
      + exists (s :: ts'). split; [right; now apply Hg|]. rewrite Ht0. unfold peek in Hs. rewrite Hs. cbn. now apply sub_keep.
  Qed.

  Lemma behaves_ext {A B} (f g : stream -> M (A * stream)) (good : list string -> B -> list string -> Prop) view l :
    (forall l', alike l l' -> g l' = f l') -> behaves f good view l -> behaves g good view l.
  Proof.
    intros H (x & r & ts & E & T & Al & G). exists x, r, ts. split; [rewrite H; [exact E|apply alike_refl]|].
    split; [exact T|]. split; [|exact G]. intros l' Hl. rewrite H by exact Hl. auto.
  Qed.

  Lemma sum_combines s o : sum_word s o ->
    forall es : list expr, 2 <= length es -> exists e, build o es = Some e /\ forall ts, palms ts es -> palm ("(" :: (s :: ts) ++ [")"]) e.
  Proof.
    intros Hs es H2. destruct (build_spec o es H2) as (a & b & E & _). exists (EBin o a b). split; [exact E|].
    intros ts Hp. exact (pl_sum stod s o ts es _ Hs Hp E).
  Qed.
  Lemma chain_combines s o : chain_word s o ->
    forall es : list expr, 2 <= length es -> exists e, right_heavy o es = Some e /\ forall ts, palms ts es -> palm ("(" :: (s :: ts) ++ [")"]) e.
  Proof.
    intros Hs es H2. destruct (right_heavy_spec o es H2) as (e & E & Hn). exists e. split; [exact E|].
    intros ts Hp. exact (pl_chain stod s o ts es e Hs Hp Hn).
  Qed.

  Lemma behaves_operation rec m :
    (forall l, length (tk l) <= m -> behaves rec is_palm view_inl l) ->
    forall k l, length (tk l) < k -> length (tk l) <= m -> behaves (operation rec k) op_of view_inl l.
  Proof.
    intros Hrec k l Hk Hm. unfold FromPALM.operation.
    (* a test on the first word is the same on streams that are alike *)
    assert (Test : forall (b : string -> bool) (f g : stream -> M (parsed expr)),
      (b (peek l) = true -> behaves f op_of view_inl l) -> (b (peek l) = false -> behaves g op_of view_inl l) ->
      behaves (fun l => if b (peek l) then f l else g l) op_of view_inl l).
    { intros b f g Hf Hg. destruct (b (peek l)) eqn:Eb.
      - apply (behaves_ext f); auto. intros l' Hl. now rewrite <- (alike_peek _ _ Hl), Eb.
      - apply (behaves_ext g); auto. intros l' Hl. now rewrite <- (alike_peek _ _ Hl), Eb. }
    assert (Word : forall s, peek l = s -> s <> "" -> tk l = (s :: tk (snd (pop l)))).
    { intros s Hs Hn. destruct (pop_takes l) as (t0 & T0 & _ & Ht0). unfold peek in Hs. rewrite Ht0 in T0 by congruence.
      rewrite Hs in T0. exact T0. }
    assert (One : forall s e, peek l = s -> s <> "" -> palm ["("; s; ")"] e ->
      behaves (fun l => ret (inl e, snd (pop l))) op_of view_inl l).
    { intros s e Hs Hn Hp. exists (inl e), (snd (pop l)), [s]. split; [reflexivity|]. split; [now apply Word|]. split.
      - intros l' Hl. exists (snd (pop l')). split; [reflexivity|]. now apply alike_pop.
      - exists [s]. split; [right; exact Hp|apply sub_refl]. }
    assert (Bin : forall s combine, peek l = s -> s <> "" ->
      (forall es, 2 <= length es -> exists e, combine es = Some e /\ forall ts, palms ts es -> palm ("(" :: (s :: ts) ++ [")"]) e) ->
      behaves (binary combine rec k) op_of view_inl l).
    { intros s combine Hs Hn Hc. now apply (behaves_binary rec m s combine). }
    apply (Test (fun t => String.eqb t "real")); intros C1.
    { apply String.eqb_eq in C1. unfold behaves, parse_real. destruct (pop_takes (snd (pop l))) as (t1 & T1 & _ & Ht1).
      specialize (Word _ C1 ltac:(discriminate)).
      destruct (pop (snd (pop l))) as [t r] eqn:Ep. cbn [fst snd] in *.
      exists (match stod t with Some c => inl (EReal c) | None => inr InvalidNumberFormat end), r, ("real" :: t1).
      split; [reflexivity|]. split; [rewrite Word, T1; reflexivity|]. split.
      - intros l' Hl. destruct (alike_pop _ _ (proj2 (alike_pop _ _ Hl))) as [F S].
        destruct (pop (snd (pop l'))) as [t' r']. rewrite Ep in F, S. cbn in F, S. subst t'. exists r'. auto.
      - destruct (stod t) eqn:Es; [|exact I]. cbn.
        destruct (string_dec t "") as [->|Hn].
        + exists []. split; [left|apply sub_nil].
          assert (En : tk r = []).
          { destruct (tk (snd (pop l))) as [|t' ts'] eqn:E'.
            - rewrite (pop_nil _ E') in Ep. injection Ep as <-. reflexivity.
            - destruct (pop_cons _ _ _ E') as (r' & P' & _ & _ & Hn). rewrite P' in Ep. congruence. }
          exact En.
        + exists ["real"; t]. rewrite (Ht1 Hn). split; [right; now apply pl_real|apply sub_refl]. }
    apply (Test (fun t => (String.eqb t "i") || (String.eqb t "j"))%bool); intros C2.
    { apply orb_true_iff in C2. destruct C2 as [C2|C2]; apply String.eqb_eq in C2;
        (apply (One _ _ C2); [discriminate|constructor]). }
    apply (Test (fun t => String.eqb t "var")); intros C3.
    { apply String.eqb_eq in C3. unfold behaves, parse_variable. destruct (pop_takes (snd (pop l))) as (t1 & T1 & _ & Ht1).
      specialize (Word _ C3 ltac:(discriminate)).
      destruct (pop (snd (pop l))) as [t r] eqn:Ep. cbn [fst snd] in *.
      exists (if (String.eqb t "") || (String.eqb t ")") then inr IncompleteExpression else inl (EVar t))%bool, r, ("var" :: t1).
      split; [reflexivity|]. split; [rewrite Word, T1; reflexivity|]. split.
      - intros l' Hl. destruct (alike_pop _ _ (proj2 (alike_pop _ _ Hl))) as [F S].
        destruct (pop (snd (pop l'))) as [t' r']. rewrite Ep in F, S. cbn in F, S. subst t'. exists r'. auto.
      - destruct ((String.eqb t "") || (String.eqb t ")"))%bool eqn:Es; [exact I|]. cbn. apply orb_false_iff in Es. destruct Es as [E1 E2].
        apply String.eqb_neq in E1, E2. exists ["var"; t]. rewrite (Ht1 E1).
        split; [right; now apply pl_var|apply sub_refl]. }
    apply (Test (fun t => String.eqb t "+")); intros C4.
    { apply String.eqb_eq in C4. apply (Bin _ _ C4); [discriminate|]. apply sum_combines. constructor. }
    apply (Test (fun t => String.eqb t "-")); intros C5.
    { apply String.eqb_eq in C5. apply (Bin _ _ C5); [discriminate|]. apply chain_combines. constructor. }
    apply (Test (fun t => String.eqb t "*")); intros C6.
    { apply String.eqb_eq in C6. apply (Bin _ _ C6); [discriminate|]. apply sum_combines. constructor. }
    apply (Test (fun t => String.eqb t "/")); intros C7.
    { apply String.eqb_eq in C7. apply (Bin _ _ C7); [discriminate|]. apply chain_combines. constructor. }
    apply (Test (fun t => String.eqb t "^")); intros C8.
    { apply String.eqb_eq in C8. apply (Bin _ _ C8); [discriminate|]. apply chain_combines. constructor. }
    apply (Test (fun t => String.eqb t "log")); intros C9.
    { apply String.eqb_eq in C9. apply (Bin _ _ C9); [discriminate|]. apply chain_combines. constructor. }
    apply (Test (fun t => String.eqb t "int")); intros C10.
    { apply String.eqb_eq in C10. apply (Bin _ _ C10); [discriminate|]. apply sum_combines. constructor. }
    apply (Test (fun t => String.eqb t "neg")); intros C11.
    { apply String.eqb_eq in C11. assert (Hle := snd_pop_length l). specialize (Word _ C11 ltac:(discriminate)).
      destruct (Hrec (snd (pop l)) ltac:(lia)) as (x & r & ts & E & T & A & G).
      unfold behaves, parse_negate.
      exists (match x with inl e => inl (ENeg e) | inr e => inr e end), r, ("neg" :: ts).
      split; [rewrite E, bindr; now destruct x|]. split; [rewrite Word, T; reflexivity|]. split.
      - intros l' Hl. destruct (A _ (proj2 (alike_pop _ _ Hl))) as (r' & E' & Hr').
        exists r'. rewrite E', bindr. split; [now destruct x|exact Hr'].
      - destruct x as [e|err]; [|exact I]. destruct G as (ts' & Gp & Gs).
        exists ("neg" :: ts'). split; [right; now apply pl_neg|now apply sub_keep]. }
    apply (Test (fun t => String.eqb t "d")); intros C12.
    { apply String.eqb_eq in C12. apply (Bin _ _ C12); [discriminate|]. apply chain_combines. constructor. }
    apply (Test (fun t => String.eqb t "pi")); intros C13.
    { apply String.eqb_eq in C13. apply (One _ _ C13); [discriminate|constructor]. }
    apply (Test (fun t => String.eqb t "e")); intros C14.
    { apply String.eqb_eq in C14. apply (One _ _ C14); [discriminate|constructor]. }
    exists (inr UnknownOperator), l, []. split; [reflexivity|]. split; [reflexivity|]. split; [|exact I].
    intros l' Hl. exists l'. auto.
  Qed.

  Lemma behaves_expr n : forall l, length (tk l) < n -> behaves (parse_expr n) is_palm view_inl l.
  Proof.
    induction n as [|n IH]; intros l Hn; [lia|].
    unfold behaves. cbn [FromPALM.parse_expr].
    destruct (String.eqb (peek l) "(") eqn:E1.
    - assert (E1' := E1). apply String.eqb_eq in E1'.
      assert (W : tk l = "(" :: tk (snd (pop l))).
      { destruct (pop_takes l) as (t0 & T0 & _ & Ht0). unfold peek in E1'. rewrite Ht0 in T0 by (rewrite E1'; discriminate).
        rewrite E1' in T0. exact T0. }
      assert (Hlen := f_equal (@length _) W). cbn in Hlen.
      destruct n as [|n'] eqn:En; [lia|]. rewrite <- En in *. 
      destruct (behaves_operation (parse_expr n) n') with (k := n) (l := snd (pop l)) as (x & r & ts & E & T & A & G);
        [intros l' Hl'; apply IH; lia|lia|lia|].
      destruct x as [e|err].
      + destruct G as (ts' & Gp & Gs). destruct (pop r) as [t r2] eqn:Ep.
        destruct (pop_takes r) as (t2 & T2 & _ & Ht2). rewrite Ep in T2, Ht2. cbn [fst snd] in T2, Ht2.
        exists (if String.eqb t ")" then inl e else inr MissingClosingParen), r2, ("(" :: ts ++ t2).
        split; [|split; [|split]].
        * rewrite E, bindr, Ep. now destruct (String.eqb t ")").
        * rewrite W, T, T2. cbn. now rewrite app_assoc.
        * intros l' Hl. rewrite <- (alike_peek _ _ Hl), E1. destruct (A _ (proj2 (alike_pop _ _ Hl))) as (r' & E' & Hr').
          destruct (alike_pop _ _ Hr') as [F S]. rewrite Ep in F, S. destruct (pop r') as [t' r2'] eqn:Ep'. cbn in F, S. subst t'.
          exists r2'. rewrite E', bindr, Ep'. split; [now destruct (String.eqb t ")")|exact S].
        * destruct (String.eqb t ")") eqn:Et; [|exact I]. apply String.eqb_eq in Et. subst t. cbn.
          rewrite (Ht2 ltac:(discriminate)) in *. destruct Gp as [Gp|Gp]; [rewrite T2 in Gp; discriminate|].
          exists ("(" :: ts' ++ [")"]). split; [exact Gp|]. apply sub_keep. apply sub_app; [exact Gs|apply sub_refl].
      + exists (inr err), r, ("(" :: ts). split; [now rewrite E, bindr|]. split; [rewrite W, T; reflexivity|]. split; [|exact I].
        intros l' Hl. rewrite <- (alike_peek _ _ Hl), E1. destruct (A _ (proj2 (alike_pop _ _ Hl))) as (r' & E' & Hr').
        exists r'. rewrite E', bindr. auto.
    - exists (if String.eqb (peek l) "" then inr UnexpectedEndOfInput else inr UnexpectedToken), l, [].
      split; [now destruct (String.eqb (peek l) "")|]. split; [reflexivity|]. split; [|now destruct (String.eqb (peek l) "")].
      intros l' Hl. rewrite <- (alike_peek _ _ Hl), E1. exists l'. split; [now destruct (String.eqb (peek l) "")|exact Hl].
  Qed.

  Definition blank_end (s : string) : bool := ends_blank (list_ascii_of_string s).
  Lemma no_trailing_blank_end s : no_trailing_blank s <-> blank_end s = false.
  Proof.
    unfold no_trailing_blank, blank_end.
    destruct (list_ascii_of_string s) as [|c l] using rev_ind.
    - split; [reflexivity|]. intros _ l c E. destruct l; discriminate.
    - rewrite ends_blank_app by discriminate. cbn [ends_blank]. split; intros H.
      + apply not_true_iff_false. rewrite is_space_blank. now apply (H l).
      + intros l' c' E. apply app_inj_tail in E. destruct E as [<- <-].
        rewrite <- is_space_blank. now apply not_true_iff_false.
  Qed.

  Lemma from_palm_behaves s : exists x,
    from_palm stod s = ret x
    /\ (forall s', tk (list_ascii_of_string s) = tk (list_ascii_of_string s') -> blank_end s = blank_end s' ->
        from_palm stod s' = ret x)
    /\ (forall e, x = inl e -> exists us, palm us e /\ subwords us (tokens s)).
  Proof.
    unfold from_palm. set (l := list_ascii_of_string s).
    assert (Hl : length (tk l) = length (words l)) by (unfold tk; apply map_length).
    destruct (behaves_expr (S (length (words l))) l) as (x & r & ts & E & T & A & G); [lia|].
    exists (match x with inr e => inr e | inl e => match r with [] => inl e | _ => inr UnexpectedToken end end).
    split; [rewrite E, bindr; now destruct x|]. split.
    - intros s' Hs Hb.
      assert (Hn : length (words (list_ascii_of_string s')) = length (words l)).
      { rewrite <- Hl, Hs. unfold tk. now rewrite map_length. }
      rewrite Hn. destruct (A (list_ascii_of_string s')) as (r' & E' & Hr'); [now split|].
      rewrite E', bindr. destruct x as [e|e]; [|reflexivity]. f_equal.
      destruct Hr' as [R1 R2].
      destruct r as [|c r], r' as [|c' r']; try reflexivity.
      + assert (Hx := tk_nil (c' :: r') (eq_sym R1) (eq_sym R2)). discriminate.
      + assert (Hx := tk_nil (c :: r) R1 R2). discriminate.
    - intros e He. destruct x as [e'|err]; [|discriminate]. destruct r; [|discriminate]. injection He as ->.
      destruct G as (ts' & Gp & Gs). exists ts'. split; [exact Gp|].
      change (tokens s) with (tk l). rewrite T. change (tk []) with (@nil string). now rewrite app_nil_r.
  Qed.

  Lemma from_palm_extra s ts us e : words_of s (ts ++ us) -> us <> [] -> palm ts e ->
    from_palm stod s = ret (inr UnexpectedToken).
  Proof.
    intros Hw Hu Hp. assert (Ht := tokens_words _ _ Hw). unfold tokens in Ht.
    unfold from_palm. destruct (reads_palm _ _ Hp (S (length (words (list_ascii_of_string s)))) (list_ascii_of_string s) us)
      as (r & E & T & B).
    - assert (Hl := f_equal (@length _) Ht). rewrite map_length, app_length in Hl. lia.
    - exact Ht.
    - rewrite E, bindr. destruct r; [|reflexivity]. cbn in T. congruence.
  Qed.

  (** ** The text of an expression *)
  Variable fmt : num -> string.

  Lemma tk_app a c b : is_space c = true -> tk (a ++ c :: b) = (tk a ++ tk b).
  Proof. intros H. unfold tk. now rewrite words_app, map_app. Qed.
  Lemma tk_one w : w <> [] -> (forall c, In c w -> is_space c = false) -> tk w = [string_of_list_ascii w].
  Proof.
    intros H1 H2. unfold tk. rewrite <- (app_nil_r w) at 1. now rewrite words_one.
  Qed.
  Definition tks (s : string) : list string := tk (list_ascii_of_string s).
  Lemma tks_space a b : tks (a ++ String " "%char b) = (tks a ++ tks b).
  Proof. unfold tks. rewrite laos_app. cbn [list_ascii_of_string]. now apply tk_app. Qed.
  Lemma tks_solid t : solid t -> tks t = [t].
  Proof.
    intros [H1 H2]. unfold tks. rewrite tk_one.
    - now rewrite string_of_list_ascii_of_string.
    - destruct t; [congruence|discriminate].
    - intros c Hc. apply not_true_iff_false. rewrite is_space_blank. auto.
  Qed.

  Fixpoint palm_words (e : expr) : list string :=
    match e with
    | EReal c => ["("; "real"; fmt c; ")"]
    | EImag => ["("; "i"; ")"]
    | EVar x => ["("; "var"; x; ")"]
    | EPi => ["("; "pi"; ")"]
    | EEuler => ["("; "e"; ")"]
    | EUn _ a => "(" :: "neg" :: palm_words a ++ [")"]
    | EBin o a b => "(" :: palm_word o :: (palm_words a ++ palm_words b) ++ [")"]
    | EUndef | EMat _ _ _ => []
    end.

  Lemma tks_word s t : tks s = [s] -> tks (s ++ String " "%char t) = s :: tks t.
  Proof. intros H. now rewrite tks_space, H. Qed.

  Lemma palm_text_words e : palm_expr stod fmt e -> tks (palm_text fmt e) = palm_words e.
  Proof.
    induction e as [c| |x| | | |r c d|o a IHa b IHb|o a IHa]; cbn [palm_expr]; intros H; try contradiction; try reflexivity.
    - destruct H as [H _]. cbn [palm_text palm_words].
      change ("( real " ++ fmt c ++ " )")%string with ("(" ++ String " " ("real" ++ String " " (fmt c ++ String " " ")")))%string.
      rewrite !tks_word by reflexivity. rewrite tks_space, (tks_solid _ H). reflexivity.
    - destruct H as [H _]. cbn [palm_text palm_words].
      change ("( var " ++ x ++ " )")%string with ("(" ++ String " " ("var" ++ String " " (x ++ String " " ")")))%string.
      rewrite !tks_word by reflexivity. rewrite tks_space, (tks_solid _ H). reflexivity.
    - destruct H as [Ha Hb]. cbn [palm_text palm_words].
      change ("( " ++ palm_word o ++ " " ++ palm_text fmt a ++ " " ++ palm_text fmt b ++ " )")%string
        with ("(" ++ String " " (palm_word o ++ String " " (palm_text fmt a ++ String " " (palm_text fmt b ++ String " " ")"))))%string.
      rewrite (tks_word "(") by reflexivity. rewrite tks_word by (destruct o; reflexivity).
      rewrite !tks_space, IHa, IHb by assumption. now rewrite <- app_assoc.
    - destruct o; [|contradiction..]. cbn [palm_text palm_words].
      change ("( neg " ++ palm_text fmt a ++ " )")%string with ("(" ++ String " " ("neg" ++ String " " (palm_text fmt a ++ String " " ")")))%string.
      rewrite !tks_word by reflexivity. rewrite tks_space, IHa by assumption. reflexivity.
  Qed.

  Lemma palm_words_palm e : palm_expr stod fmt e -> palm (palm_words e) e.
  Proof.
    induction e as [c| |x| | | |r c d|o a IHa b IHb|o a IHa]; cbn [palm_expr palm_words]; intros H; try contradiction; try constructor.
    - apply H.
    - destruct H as [[H _] _]. exact H.
    - apply H.
    - destruct H as [Ha Hb].
      assert (Hp : palms (palm_words a ++ palm_words b) [a; b]).
      { rewrite <- (app_nil_r (palm_words b)). constructor; [auto|]. constructor; [auto|constructor]. }
      destruct o; first [eapply pl_sum; [constructor|exact Hp|reflexivity] | eapply pl_chain; [constructor|exact Hp|constructor]].
    - destruct o; [|contradiction..]. apply pl_neg. auto.
  Qed.

  Lemma blank_end_app a b : b <> "" -> blank_end (a ++ b) = blank_end b.
  Proof. intros H. unfold blank_end. rewrite laos_app. apply ends_blank_app. destruct b; [congruence|discriminate]. Qed.
  Lemma palm_text_end e : palm_expr stod fmt e -> exists a, palm_text fmt e = (a ++ ")")%string.
  Proof.
    assert (App : forall a b c : string, (a ++ b ++ c = (a ++ b) ++ c)%string)
      by (induction a; intros; cbn; congruence).
    destruct e as [c| |x| | | |r c d|o a b|o a]; cbn [palm_expr]; intros H; try contradiction; cbn [palm_text].
    - exists ("( real " ++ fmt c ++ " ")%string. now rewrite <- !App.
    - now exists "( i ".
    - exists ("( var " ++ x ++ " ")%string. now rewrite <- !App.
    - now exists "( e ".
    - now exists "( pi ".
    - exists ("( " ++ palm_word o ++ " " ++ palm_text fmt a ++ " " ++ palm_text fmt b ++ " ")%string. now rewrite <- !App.
    - exists ("( neg " ++ palm_text fmt a ++ " ")%string. now rewrite <- !App.
  Qed.

  Lemma palm_operands_words es : List.Forall (palm_expr stod fmt) es ->
    exists ts, tks (palm_operands fmt es ++ ")") = (ts ++ [")"]) /\ palms ts es.
  Proof.
    assert (App : forall a b c : string, ((a ++ b) ++ c = a ++ b ++ c)%string)
      by (induction a; intros; cbn; congruence).
    induction 1 as [|e es He _ (ts & IH1 & IH2)]; cbn [palm_operands].
    - exists []. split; [reflexivity|constructor].
    - exists (palm_words e ++ ts). split; [|constructor; [now apply palm_words_palm|exact IH2]].
      rewrite !App. change (" " ++ palm_operands fmt es ++ ")")%string with (String " " (palm_operands fmt es ++ ")")).
      rewrite tks_space, IH1, palm_text_words by exact He. now rewrite app_assoc.
  Qed.

  Lemma words_of_tks s : words_of s (tks s).
  Proof. apply words_of_tokens. Qed.

  Lemma from_palm_text e : palm_expr stod fmt e -> from_palm stod (palm_text fmt e) = ret (inl e).
  Proof.
    intros H. apply (from_palm_words _ (palm_words e)).
    - rewrite <- palm_text_words by exact H. apply words_of_tks.
    - apply no_trailing_blank_end. destruct (palm_text_end e H) as (a & ->). rewrite blank_end_app by discriminate. reflexivity.
    - now apply palm_words_palm.
  Qed.

  Lemma from_palm_call s es e : tks s = [s] ->
    List.Forall (palm_expr stod fmt) es ->
    (forall ts, palms ts es -> palm ("(" :: s :: ts ++ [")"]) e) ->
    from_palm stod (palm_call fmt s es) = ret (inl e).
  Proof.
    intros Hs He Hc. destruct (palm_operands_words es He) as (ts & H1 & H2).
    apply (from_palm_words _ ("(" :: s :: ts ++ [")"])).
    - replace ("(" :: s :: ts ++ [")"]) with (tks (palm_call fmt s es)); [apply words_of_tks|].
      unfold palm_call. change ("( " ++ s ++ " " ++ palm_operands fmt es ++ ")")%string
        with ("(" ++ String " " (s ++ String " " (palm_operands fmt es ++ ")")))%string.
      rewrite tks_word by reflexivity. rewrite tks_word by exact Hs. now rewrite H1.
    - apply no_trailing_blank_end. unfold palm_call.
      assert (App : forall a b c : string, (a ++ b ++ c = (a ++ b) ++ c)%string)
        by (induction a; intros; cbn; congruence).
      rewrite !App. rewrite blank_end_app by discriminate. reflexivity.
    - now apply Hc.
  Qed.

  (** Without literals and variables, the parentheses of a text of the grammar match. *)
  Definition cnt (t : string) (ts : list string) : nat := count_occ string_dec ts t.
  Lemma cnt_app t a b : cnt t (a ++ b) = cnt t a + cnt t b.
  Proof. apply count_occ_app. Qed.
  Lemma palm_counts ts e : palm ts e -> ~ In "real" ts -> ~ In "var" ts -> cnt "(" ts = cnt ")" ts.
  Proof.
    set (ok := fun ts : list string => ~ In "real" ts -> ~ In "var" ts -> cnt "(" ts = cnt ")" ts).
    apply (palm_mut num stod (fun ts _ => ok ts) (fun ts _ => ok ts)); unfold ok; clear; intros.
    - exfalso. apply H0. cbn. auto.
    - reflexivity.
    - reflexivity.
    - exfalso. apply H2. cbn. auto.
    - reflexivity.
    - reflexivity.
    - assert (E : cnt "(" ts = cnt ")" ts) by (apply H0; intro; [apply H1|apply H2]; cbn; rewrite in_app_iff; auto).
      change ("(" :: "neg" :: ts ++ [")"]) with (["("; "neg"] ++ ts ++ [")"]). rewrite !cnt_app, E. cbn. lia.
    - assert (E : cnt "(" ts = cnt ")" ts) by (apply H1; intro; [apply H3|apply H4]; cbn; rewrite in_app_iff; auto).
      change ("(" :: s :: ts ++ [")"]) with (["("; s] ++ ts ++ [")"]). rewrite !cnt_app, E.
      inversion H; subst; cbn; lia.
    - assert (E : cnt "(" ts = cnt ")" ts) by (apply H1; intro; [apply H3|apply H4]; cbn; rewrite in_app_iff; auto).
      change ("(" :: s :: ts ++ [")"]) with (["("; s] ++ ts ++ [")"]). rewrite !cnt_app, E.
      inversion H; subst; cbn; lia.
    - reflexivity.
    - rewrite !cnt_app. rewrite in_app_iff in H3, H4. rewrite H0, H2 by tauto. reflexivity.

  Qed.
End Parser.
