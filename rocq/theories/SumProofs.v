(** Sums of multiples of distinct powers with any literals as coefficients:
    Simplify only rearranges them. *)
From Coq Require Import String Bool Arith ZArith List Lia Permutation.
From Verif Require Import Base Num Expr Ghost Simplify Calculus Spec SpecPoly TreeProofs MonadProofs FuelProofs PolyProofs.
Import ListNotations.
Open Scope Z_scope.
Open Scope list_scope.

Section Sums.
  Context {num : Type} {N : NumOps num}.
  Variables (lit : num -> Z -> Prop) (ok : Z -> Prop).
  Hypothesis IL : IntLits N lit ok.
  Notation E := (expr num).
  Notation power := (power lit).
  Variable prefer : bool.

  (** A coefficient, a power, and the name and exponent of the power. *)
  Definition item := (num * E * (string * Z))%type.
  Definition coef (i : item) : num := fst (fst i).
  Definition base (i : item) : E := snd (fst i).
  Definition ikey (i : item) : string * Z := snd i.
  Definition ikeys (l : list item) : list (string * Z) := map ikey l.

  Inductive gterm : E -> item -> Prop :=
  | gt_one p x k : power p x k -> gterm p (n1, p, (x, k))
  | gt_pre d p x k : power p x k -> gterm (EMul (EReal d) p) (d, p, (x, k))
  | gt_post d p x k : power p x k -> gterm (EMul p (EReal d)) (d, p, (x, k)).

  Inductive gsum : E -> list item -> Prop :=
  | gs_term e i : gterm e i -> gsum e [i]
  | gs_add a b ia ib : gsum a ia -> gsum b ib -> gsum (EAdd a b) (ia ++ ib).

  (** A term as it is written in the result. *)
  Definition norm (i : item) : E := if n_eqb (coef i) n1 then base i else EMul (EReal (coef i)) (base i).
  Definition entry1 (i : item) : E := EMul (EReal (coef i)) (base i).

  Lemma key_neq x k y j : (x, k) <> (y, j) -> key_eqb (Some (x, k)) (Some (y, j)) = false.
  Proof. intros H. apply key_eqb_neq. congruence. Qed.

  Lemma equals_gterm (a b : E) ia ib : gterm a ia -> gterm b ib ->
    exists q, equals a b = Some q /\ (q = true -> ikey ia = ikey ib).
  Proof.
    intros Ha Hb.
    assert (K : forall p q x k y j, power p x k -> power q y j -> key_eqb (Some (x, k)) (Some (y, j)) = true -> (x, k) = (y, j)).
    { intros p q x k y j _ _ H. apply key_eqb_eq in H. congruence. }
    destruct Ha as [p x k Hp|d p x k Hp|d p x k Hp], Hb as [q y j Hq|d' q y j Hq|d' q y j Hq];
      try (exists false; split; [destruct Hp, Hq; reflexivity|discriminate]); cbn [ikey snd].
    - destruct (equals_power lit ok IL p q x k y j Hp Hq) as [H1 H2]. eexists. split; [exact H1|]. eauto.
    - destruct (equals_multiple lit ok IL true p q (EMul (EReal d) p) (EMul (EReal d') q) x k y j d 1 d' 1 Hp Hq) as [H1 H2];
        [constructor|constructor|]. eexists. split; [exact H1|]. intros H. apply andb_prop in H. destruct H. eauto.
    - destruct (equals_multiple lit ok IL true p q (EMul (EReal d) p) (EMul q (EReal d')) x k y j d 1 d' 1 Hp Hq) as [H1 H2];
        [constructor|constructor; [reflexivity|discriminate]|]. eexists. split; [exact H1|]. intros H. apply andb_prop in H. destruct H. eauto.
    - destruct (equals_multiple lit ok IL true p q (EMul p (EReal d)) (EMul (EReal d') q) x k y j d 1 d' 1 Hp Hq) as [H1 H2];
        [constructor; [reflexivity|discriminate]|constructor|]. eexists. split; [exact H1|]. intros H. apply andb_prop in H. destruct H. eauto.
    - destruct (equals_multiple lit ok IL true p q (EMul p (EReal d)) (EMul q (EReal d')) x k y j d 1 d' 1 Hp Hq) as [H1 H2];
        [constructor; [reflexivity|discriminate]|constructor; [reflexivity|discriminate]|]. eexists. split; [exact H1|].
      intros H. apply andb_prop in H. destruct H. eauto.
  Qed.

  Lemma find_eq_gterms (x : E) i m im : gterm x i -> Forall2 gterm m im ->
    exists q, find_eq (equals x) m = Some q /\ (q = true -> In (ikey i) (ikeys im)).
  Proof.
    intros Hx H. induction H as [|y u m im Hy H IH].
    - exists false. split; [reflexivity|discriminate].
    - destruct (equals_gterm x y i u Hx Hy) as (q & E1 & K). cbn [find_eq]. rewrite E1. destruct q.
      + exists true. split; auto. intros _. left. now rewrite K.
      + destruct IH as (q & E2 & K2). exists q. split; auto. intros Hq. right. auto.
  Qed.
  Lemma all_found_gterms (l : list E) il m im : Forall2 gterm l il -> Forall2 gterm m im ->
    exists q, all_found l m = Some q /\ (q = true -> incl (ikeys il) (ikeys im)).
  Proof.
    intros Hl Hm. induction Hl as [|x t l il Hx Hl IH].
    - exists true. split; [reflexivity|]. intros _ k [].
    - destruct (find_eq_gterms x t m im Hx Hm) as (q & E1 & K1). cbn [all_found]. rewrite E1. destruct q.
      + destruct IH as (q & E2 & K2). exists q. split; [exact E2|]. intros Hq k [<-|Hk]; auto. now apply K2.
      + exists false. split; [reflexivity|discriminate].
  Qed.

  Lemma gsum_flat e il : gsum e il -> Forall2 gterm (flat OAdd e) il.
  Proof.
    intros H. induction H as [e i Hi|a b ia ib Ha IHa Hb IHb].
    - assert (K : flat OAdd e = [e]) by (destruct Hi as [p x k Hp|d p x k Hp|d p x k Hp]; destruct Hp; reflexivity).
      rewrite K. auto.
    - simpl. now apply Forall2_app.
  Qed.
  Lemma gsum_length e il : gsum e il -> (1 <= length il)%nat.
  Proof. intros H. induction H; simpl; [lia|]. rewrite app_length. lia. Qed.

  Lemma equals_gsum (a b : E) ia ib : gsum a ia -> gsum b ib ->
    exists q, equals a b = Some q /\ (q = true -> incl (ikeys ia) (ikeys ib)).
  Proof.
    intros Ha. revert b ib. induction Ha as [a i Hi|a1 a2 t1 t2 H1 IH1 H2 IH2]; intros b ib Hb.
    - destruct Hb as [b u Hu|b1 b2 u1 u2 G1 G2].
      + destruct (equals_gterm a b i u Hi Hu) as (q & K1 & K2). exists q. split; auto.
        intros Hq k [<-|[]]. left. now rewrite K2.
      + exists false. split; [|discriminate]. destruct Hi as [p x k Hp|d p x k Hp|d p x k Hp]; destruct Hp; reflexivity.
    - destruct Hb as [b u Hu|b1 b2 u1 u2 G1 G2].
      + exists false. split; [|discriminate]. destruct Hu as [p x k Hp|d p x k Hp|d p x k Hp]; destruct Hp; reflexivity.
      + rewrite equals_bin. cbn [binop_eqb assoc].
        destruct (IH1 b1 u1 G1) as (q1 & -> & K1). destruct (IH2 b2 u2 G2) as (q2 & -> & K2). unfold ikeys in *.
        destruct (q1 && q2) eqn:Eq.
        * apply andb_prop in Eq. destruct Eq as [-> ->]. exists true. split; [reflexivity|]. intros _.
          rewrite !map_app. intros k Hk. apply in_app_or in Hk. apply in_or_app.
          destruct Hk as [Hk|Hk]; [left; now apply K1|right; now apply K2].
        * apply all_found_gterms; unfold flatten; apply Forall2_app; now apply gsum_flat.
  Qed.
  Lemma m_eq_gsum (a b : E) ia ib : gsum a ia -> gsum b ib -> NoDup (ikeys (ia ++ ib)) -> m_eq a b = ([], Ok false).
  Proof.
    intros Ha Hb Hd. apply m_eq_false. destruct (equals_gsum a b ia ib Ha Hb) as (q & Eq & K). destruct q; [|exact Eq]. exfalso.
    apply gsum_length in Ha. destruct ia as [|i ia]; [cbn in Ha; lia|]. unfold ikeys in *. rewrite map_app in Hd. apply nodup_app in Hd.
    destruct Hd as (_ & _ & D). apply (D (ikey i)); [now left|]. apply K; [reflexivity|now left].
  Qed.

  Notation addS n := (simp (S (S (S n))) prefer).
  Notation add_run n a b := (first_rule (add_rules (addS n)) (add_rest (addS n)) a b).
  Ltac go := cbn -[m_eq simp add_rest String.eqb Z.eqb n0 n1 n2].
  Ltac meq :=
    repeat match goal with
    | H : m_eq ?a ?b = _ |- context [m_eq ?a ?b] => rewrite H
    end.
  Ltac nxt := rewrite first_no; [|solve [reflexivity | unfold add_101, add_107, add_141, add_146; go; meq; reflexivity]].

  Lemma add_distinct_rules n a b ia ib : gsum a ia -> gsum b ib -> NoDup (ikeys (ia ++ ib)) ->
    add_run n a b = add_rest (addS n) a b.
  Proof.
    intros Ha Hb Hd. pose proof (m_eq_gsum a b ia ib Ha Hb Hd) as M. unfold add_rules.
    unfold ikeys in Hd. rewrite map_app in Hd. apply nodup_app in Hd. destruct Hd as (_ & _ & D).
    destruct Ha as [a t Ht|a1 a2 t1 t2 H1 H2], Hb as [b u Hu|b1 b2 u1 u2 G1 G2].
    - assert (Hk : ikey t <> ikey u) by (intros K; apply (D (ikey t)); [now left|rewrite K; now left]). clear D.
      assert (PP : forall p q x k y j, power p x k -> power q y j -> (x, k) <> (y, j) -> m_eq p q = ([], Ok false)).
      { intros p q x k y j Hp Hq Hn. rewrite (m_eq_power lit ok IL p q x k y j Hp Hq), (key_neq _ _ _ _ Hn). reflexivity. }
      destruct Ht as [p x k Hp|d p x k Hp|d p x k Hp], Hu as [q y j Hq|d' q y j Hq|d' q y j Hq]; cbn [ikey snd] in Hk;
        pose proof (PP p q x k y j Hp Hq Hk) as M1; pose proof (PP q p y j x k Hq Hp (not_eq_sym Hk)) as M2; clear PP;
        try (assert (M3 : m_eq p (EMul (EReal d') q) = ([], Ok false)) by (destruct Hp; reflexivity));
        try (assert (M4 : m_eq p (EMul q (EReal d')) = ([], Ok false)) by (destruct Hp; reflexivity));
        destruct Hp, Hq; do 7 nxt; reflexivity.
    - assert (PS : forall p x k, power p x k -> m_eq p (EAdd b1 b2) = ([], Ok false)) by (intros p x k Hp; destruct Hp; reflexivity).
      destruct Ht as [p x k Hp|d p x k Hp|d p x k Hp]; pose proof (PS _ _ _ Hp) as M1; clear PS; destruct Hp; do 7 nxt; reflexivity.
    - assert (PS : forall p x k, power p x k -> m_eq p (EAdd a1 a2) = ([], Ok false)) by (intros p x k Hp; destruct Hp; reflexivity).
      destruct Hu as [p x k Hp|d p x k Hp|d p x k Hp]; pose proof (PS _ _ _ Hp) as M1; clear PS; destruct Hp; do 7 nxt; reflexivity.
    - do 7 nxt; reflexivity.
  Qed.

  (** ** Collecting *)
  Definition wf (i : item) : Prop := power (base i) (fst (ikey i)) (snd (ikey i)).
  Lemma gterm_wf e i : gterm e i -> wf i.
  Proof. intros H. destruct H; assumption. Qed.

  Lemma scan_none f (vals : list E) : (forall v, In v vals -> f v = ([], Ok None)) -> scan f vals = ([], Ok None).
  Proof.
    induction vals as [|v vals IH]; intros H; [reflexivity|]. cbn [scan]. rewrite (H v (or_introl eq_refl)), bind_ok.
    rewrite IH; [reflexivity|]. intros w Hw. apply H. now right.
  Qed.

  Lemma collect_new (S : E -> M E) e i vals : gterm e i -> Forall wf vals -> ~ In (ikey i) (ikeys vals) ->
    add_collect S (map entry1 vals) e = ([], Ok (map entry1 vals ++ [entry1 i])).
  Proof.
    intros He Hv Hn.
    assert (Push : forall f d, (forall v, In v (map entry1 vals) -> f v = ([], Ok None)) ->
              scan_or_push f (map entry1 vals) (ret d) = ([], Ok (map entry1 vals ++ [d]))).
    { intros f d Hf. unfold scan_or_push. rewrite (scan_none f _ Hf). reflexivity. }
    assert (Ent : forall f : E -> M (option E), (forall c q y j, power q y j -> (y, j) <> ikey i -> f (EMul (EReal c) q) = ([], Ok None)) ->
              forall v, In v (map entry1 vals) -> f v = ([], Ok None)).
    { intros f Hf v Hi. apply in_map_iff in Hi. destruct Hi as (u & <- & Hu). rewrite Forall_forall in Hv. specialize (Hv u Hu).
      unfold entry1. apply (Hf _ _ _ _ Hv). intros K. apply Hn. rewrite <- K. rewrite <- surjective_pairing. now apply in_map. }
    assert (V : forall x c, (x, 1) = ikey i -> forall v, In v (map entry1 vals) -> add_collect_var S x c v = ([], Ok None)).
    { intros x c Hx. apply Ent. intros c' q y j Hq Hj. rewrite <- Hx in Hj. unfold add_collect_var.
      destruct Hq as [y|y e' j He' J0 J1]; [|reflexivity]. cbn -[String.eqb].
      destruct (String.eqb_spec y x); [subst; congruence|reflexivity]. }
    assert (X : forall x c0 k c b, lit c0 k -> k <> 0 -> k <> 1 -> (x, k) = ikey i -> forall v, In v (map entry1 vals) ->
              add_collect_exp S (EExp (EVar x) (EReal c0)) c b v = ([], Ok None)).
    { intros x c0 k c b Hc K0 K1 Hx. apply Ent. intros c' q y j Hq Hj. rewrite <- Hx in Hj. unfold add_collect_exp.
      destruct Hq as [y|y e' j He' J0 J1]; [reflexivity|]. cbn -[m_eq].
      rewrite (m_eq_power lit ok IL _ _ y j x k); [|now constructor|now constructor]. rewrite (key_neq _ _ _ _ Hj). reflexivity. }
    destruct He as [p x k Hp|d p x k Hp|d p x k Hp]; destruct Hp as [x|x c0 k Hc K0 K1];
      unfold add_collect; cbn -[scan_or_push String.eqb n0 n1]; apply Push; eauto.
  Qed.
  Lemma collect_distinct (S : E -> M E) l il : Forall2 gterm l il -> forall vals, Forall wf vals -> NoDup (ikeys (vals ++ il)) ->
    foldM (add_collect S) (map entry1 vals) l = ([], Ok (map entry1 (vals ++ il))).
  Proof.
    intros H. induction H as [|e i l il He H IH]; intros vals Hv Hd.
    - now rewrite app_nil_r.
    - cbn [foldM]. rewrite (collect_new S e i vals He Hv).
      + rewrite bind_ok. change [entry1 i] with (map entry1 [i]). rewrite <- map_app, IH.
        * now rewrite <- app_assoc.
        * apply Forall_app. split; auto. constructor; [eapply gterm_wf; eauto|constructor].
        * rewrite <- app_assoc. exact Hd.
      + unfold ikeys in *. rewrite map_app in Hd. apply nodup_app in Hd. destruct Hd as (_ & _ & D). intros K. apply (D _ K). now left.
  Qed.

  Lemma strip_entry1 i : wf i -> strip_coef (entry1 i) = norm i.
  Proof. intros H. unfold strip_coef, entry1, norm, wf in *. cbn. destruct (n_eqb (coef i) n1); [destruct H|]; reflexivity. Qed.
  Lemma add_zero_norm i : wf i -> tiny (coef i) = false -> add_zero (norm i) = false /\ add_zero_bad (norm i) = false.
  Proof.
    intros H Ht. unfold norm, wf in *. destruct (n_eqb (coef i) n1).
    - destruct H; split; reflexivity.
    - split; cbn; now rewrite Ht.
  Qed.
  Definition big (i : item) : Prop := tiny (coef i) = false.

  Lemma add_rest_distinct (S : E -> M E) a b ia ib r : gsum a ia -> gsum b ib -> NoDup (ikeys (ia ++ ib)) -> Forall big (ia ++ ib) ->
    build OAdd (map norm (ia ++ ib)) = Some r -> add_rest S a b = ([], Ok r).
  Proof.
    intros Ha Hb Hd Hbig Hr. unfold add_rest, flatten.
    pose proof (Forall2_app (gsum_flat _ _ Ha) (gsum_flat _ _ Hb)) as F.
    pose proof (collect_distinct S _ _ F [] (Forall_nil _) Hd) as C. cbn [map app] in C. rewrite C, bind_ok.
    assert (W : Forall wf (ia ++ ib)) by (clear - F; induction F; constructor; eauto using gterm_wf).
    assert (K : map strip_coef (map entry1 (ia ++ ib)) = map norm (ia ++ ib) /\
                filter (fun v => negb (add_zero v)) (map norm (ia ++ ib)) = map norm (ia ++ ib) /\
                existsb add_zero_bad (map norm (ia ++ ib)) = false).
    { clear - W Hbig. revert W Hbig. generalize (ia ++ ib). intros l W Hbig. induction W as [|i l Hi W IH]; [repeat split|].
      inversion Hbig as [|? ? B1 B2]; subst. destruct (IH B2) as (I1 & I2 & I3). cbn [map filter existsb].
      destruct (add_zero_norm i Hi B1) as [Z1 Z2]. rewrite (strip_entry1 i Hi), I1, Z1, Z2, I2, I3. repeat split. }
    destruct K as (-> & K2 & ->). rewrite K2, Hr. reflexivity.
  Qed.

  (** The sum of two simplified sums without a common power. *)
  Lemma simp_add_distinct n a b a' b' ia ib r : simp (S (S (S n))) prefer a = ([], Ok a') -> simp (S (S (S n))) prefer b = ([], Ok b') ->
    gsum a' ia -> gsum b' ib -> NoDup (ikeys (ia ++ ib)) -> Forall big (ia ++ ib) ->
    build OAdd (map norm (ia ++ ib)) = Some r -> simp (S (S (S (S n)))) prefer (EAdd a b) = ([], Ok r).
  Proof.
    intros Sa Sb Ha Hb Hd Hbig Hr. change (simp (S (S (S (S n)))) prefer (EAdd a b)) with (visit_add (addS n) a b).
    unfold visit_add. rewrite (operands_run _ _ _ _ a' b' Sa Sb), (add_distinct_rules n a' b' ia ib Ha Hb Hd).
    eapply add_rest_distinct; eauto.
  Qed.
  Lemma yields_add_distinct a b a' b' ia ib r : yields prefer a a' -> yields prefer b b' ->
    gsum a' ia -> gsum b' ib -> NoDup (ikeys (ia ++ ib)) -> Forall big (ia ++ ib) ->
    build OAdd (map norm (ia ++ ib)) = Some r -> yields prefer (EAdd a b) r.
  Proof.
    intros (n & Ya) (m & Yb) Ha Hb Hd Hbig Hr. exists (S (S (S (S (max n m))))).
    apply (simp_add_distinct (max n m) a b a' b' ia ib r); auto; [apply (yields_ge _ _ _ n)|apply (yields_ge _ _ _ m)]; auto; lia.
  Qed.

  (** ** Trees of normal terms *)
  Lemma norm_gterm i : wf i -> exists i', gterm (norm i) i' /\ ikey i' = ikey i /\ norm i' = norm i /\ (big i -> tiny n1 = false -> big i').
  Proof.
    intros H. unfold norm, wf in *. destruct i as [[d p] [x k]]. cbn [coef base ikey fst snd] in *. destruct (n_eqb d n1) eqn:E1.
    - exists (n1, p, (x, k)). split; [now constructor|]. split; [reflexivity|]. split; [|unfold big; cbn; auto].
      unfold coef, base. cbn [fst snd]. destruct (n_eqb n1 n1) eqn:E2; [reflexivity|].
      rewrite (il_eqb _ _ _ IL n1 n1 1 1) in E2; [discriminate| |]; apply (il_of_Z _ _ _ IL); eapply (il_ok_le _ _ _ IL); [apply (il_ok_2 _ _ _ IL)|lia|apply (il_ok_2 _ _ _ IL)|lia].
    - exists (d, p, (x, k)). split; [now constructor|]. split; [reflexivity|]. split; [|auto].
      unfold coef, base. cbn [fst snd]. now rewrite E1.
  Qed.
End Sums.
