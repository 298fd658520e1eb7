(** What the visitors do on a class of expressions that is closed under the
    rewriting rules: which outcomes are possible, and that results stay in
    the class.  Used for several classes. *)
From Coq Require Import String Bool Arith ZArith List Lia.
From Verif Require Import Base Num Expr Ghost Simplify Calculus Spec TreeProofs.
Import ListNotations.

(** Failures that are allowed, and ghost events after which everything is. *)
Record allowed := { thr : Prop; und : ub -> Prop; abt : Prop; bad : defect -> bool }.

(** [m] ends, if it ends, with a result in [Q] or an allowed failure.
    No visitor throws invalid_argument. *)
Definition spec {A} (al : allowed) (err : Prop) (m : M A) (Q : A -> Prop) : Prop :=
  existsb (bad al) (fst m) = true \/
  match snd m with
  | Ok a => Q a
  | Err _ => err
  | Throw x => thr al /\ x <> InvalidArgument
  | Abort => abt al
  | Undef u => und al u
  | OutOfFuel => True
  end.

Lemma bind_bind {A B C} (m : M A) (f : A -> M B) (g : B -> M C) :
  bind (bind m f) g = bind m (fun x => bind (f x) g).
Proof.
  destruct m as [t [a|s|x| |u|]]; simpl; auto.
  destruct (f a) as [t' [b|s|x| |u|]]; simpl; auto. now rewrite app_assoc.
Qed.

Lemma bind_ret {A B} (a : A) (k : A -> M B) : bind (ret a) k = k a.
Proof. unfold ret. simpl. now destruct (k a). Qed.

Section Specs.
  Variable al : allowed.
  Lemma spec_ret {A} err (a : A) (Q : A -> Prop) : Q a -> spec al err (ret a) Q.
  Proof. now right. Qed.
  Lemma spec_bind {A B} (err : Prop) (m : M A) (k : A -> M B) (Q : A -> Prop) (R : B -> Prop) :
    spec al err m Q -> (forall a, Q a -> spec al err (k a) R) -> spec al err (bind m k) R.
  Proof.
    unfold spec. intros [H|H] K.
    - left. destruct m as [t [a|s|x| |u|]]; simpl in *; auto. now rewrite existsb_app, H.
    - destruct m as [t [a|s|x| |u|]]; simpl in *; auto.
      destruct (K a H) as [E|E]; [left|right; exact E]. now rewrite existsb_app, E, orb_true_r.
  Qed.
  Lemma spec_weaken {A} (err err' : Prop) (m : M A) (Q R : A -> Prop) :
    spec al err m Q -> (err -> err') -> (forall a, Q a -> R a) -> spec al err' m R.
  Proof. unfold spec. intros [H|H] E K; [now left|right]. destruct (snd m); auto. Qed.
  Lemma spec_try {A} (err err' : Prop) (m : M A) (Q : A -> Prop) :
    spec al err m Q -> spec al err' (m_try m) (fun x => match x with inl a => Q a | inr _ => err end).
  Proof. unfold spec. intros [H|H]; [left|right]; destruct m as [t [a|s|x| |u|]]; simpl in *; auto. Qed.
  Lemma spec_value {A} (err err' : Prop) (m : M A) (Q : A -> Prop) :
    spec al err m Q -> (err -> thr al) -> spec al err' (m_value m) Q.
  Proof.
    unfold spec. intros [H|H] K; [left|right]; destruct m as [t [a|s|x| |u|]]; simpl in *; auto.
    split; [auto|discriminate].
  Qed.
  Lemma spec_emit err b d : spec al err (emit b d) (fun _ => True).
  Proof. now right. Qed.
  Lemma spec_tell err d : spec al err (tell d) (fun _ => True).
  Proof. now right. Qed.
  Lemma spec_escape {B} err d (R : B -> Prop) (m : unit -> M B) :
    bad al d = true -> spec al err (bind (emit true d) m) R.
  Proof. intros H. left. simpl. now rewrite H. Qed.
End Specs.

Lemma flat_app {num} (P : expr num -> Prop) o : (forall a b, P (EBin o a b) -> P a /\ P b) ->
  forall e, P e -> List.Forall P (flat o e).
Proof.
  intros H. induction e as [c| |x| | | |r c d|o' a IHa b IHb|o' a IHa]; intros Pe; try (constructor; auto; fail).
  simpl. destruct (binop_eqb o o') eqn:E; [|constructor; auto].
  assert (o = o') as <- by (destruct o, o'; auto; discriminate).
  apply Forall_app. destruct (H _ _ Pe). split; auto.
Qed.

Lemma pair_pass_P {num} (P : expr num -> Prop) o : (forall a b, P a -> P b -> P (EBin o a b)) ->
  forall l, List.Forall P l -> List.Forall P (pair_pass o l).
Proof.
  intros H l. remember (length l) as n eqn:En. revert l En.
  induction n as [n IH] using (well_founded_induction lt_wf). intros l -> Hl.
  destruct l as [|a [|b l]]; simpl; auto. inversion Hl as [|? ? Ha Hl']; subst. inversion Hl' as [|? ? Hb Hl'']; subst.
  constructor; auto. apply (IH (length l)); simpl; auto.
Qed.
Lemma build_P {num} (P : expr num -> Prop) o : (forall a b, P a -> P b -> P (EBin o a b)) ->
  forall l e, List.Forall P l -> build o l = Some e -> P e.
Proof.
  intros H.
  assert (K : forall n l e, List.Forall P l -> build_loop n o l = Some e -> P e).
  { induction n; simpl; [discriminate|]. intros l e Hl. destruct l as [|a [|b l]]; try discriminate.
    - intros [= <-]. now inversion Hl.
    - apply IHn. now apply pair_pass_P. }
  intros l e Hl. unfold build. destruct l as [|a [|b l]]; try discriminate. now apply K.
Qed.

(** A class of expressions that the rules do not leave. *)
Record class {num} {N : NumOps num} (al : allowed) (err : Prop) (P : expr num -> Prop) : Prop := {
  c_real : forall c, P (EReal c);
  c_undef : P EUndef;
  c_euler : P EEuler;
  c_add : forall a b, P (EAdd a b) <-> P a /\ P b;
  c_sub : forall a b, P (ESub a b) <-> P a /\ P b;
  c_mul : forall a b, P (EMul a b) <-> P a /\ P b;
  c_div : forall a b, P (EDiv a b) <-> P a /\ P b;
  c_exp : forall a b, P (EExp a b) <-> P a /\ P b;
  c_log : forall a b, P (ELog a b) <-> P a /\ P b;
  c_deriv : forall a b, P (EDeriv a b) <-> P a /\ P b;
  c_neg : forall a, P (ENeg a) <-> P a;
  c_sine : forall a, P (ESine a) -> P a /\ err /\ forall b, P b -> P (ESine b);
  c_mag : forall a, P (EMag a) -> P a /\ err /\ forall b, P b -> P (EMag b);
  c_mat : forall r c d, P (EMat r c d) -> und al EigenMismatch /\ err /\ forall r' c' d', P (EMat r' c' d');
  c_int : forall a b, P (EInt a b) -> P a /\ P b /\ P (EInt EUndef EUndef);
  c_int' : P (EInt EUndef EUndef) -> (forall a b, P a -> P b -> P (EInt a b)) /\ P (EVar "C") /\ und al NullDeref;
  c_pi : P EPi -> thr al;
  c_imag : P EImag -> thr al /\ und al BadNumericCast;
  c_logneg : (P EImag /\ P EPi) \/ (forall c, n_ltb c n0 = true -> n_leb c n0 = true);
  c_half : P EImag \/ bad al SqrtNegative = true;
  c_err : err -> thr al;
  c_abt : abt al
}.

Ltac fits_inv :=
  repeat match goal with
         | H : fits (PBin _ _ _) _ |- _ => inversion H; subst; clear H
         | H : fits (PUn _ _) _ |- _ => inversion H; subst; clear H
         | H : fits PReal _ |- _ => inversion H; subst; clear H
         | H : fits PImag _ |- _ => inversion H; subst; clear H
         | H : fits PVar _ |- _ => inversion H; subst; clear H
         | H : fits PEuler _ |- _ => inversion H; subst; clear H
         | H : fits PMat _ |- _ => inversion H; subst; clear H
         | H : fits PAny _ |- _ => clear H
         end.

Section Closure.
  Context {num : Type} {N : NumOps num}.
  Notation expr := (expr num).
  Variables (al : allowed) (err : Prop) (P : expr -> Prop).
  Hypothesis HC : class al err P.
  Notation spec := (spec al).

  Lemma P_reorders a b : reorders a b -> P a -> P b.
  Proof.
    intros H. induction H as [e|o a b a' b' H1 IH1 H2 IH2|o a b a' b' Ho H1 IH1 H2 IH2|o a a' H IH]; auto; intros Hp.
    - destruct o.
      1: apply (c_add _ _ _ HC) in Hp; apply (c_add _ _ _ HC); tauto.
      1: apply (c_sub _ _ _ HC) in Hp; apply (c_sub _ _ _ HC); tauto.
      1: apply (c_mul _ _ _ HC) in Hp; apply (c_mul _ _ _ HC); tauto.
      1: apply (c_div _ _ _ HC) in Hp; apply (c_div _ _ _ HC); tauto.
      1: apply (c_exp _ _ _ HC) in Hp; apply (c_exp _ _ _ HC); tauto.
      1: apply (c_log _ _ _ HC) in Hp; apply (c_log _ _ _ HC); tauto.
      1: apply (c_deriv _ _ _ HC) in Hp; apply (c_deriv _ _ _ HC); tauto.
      apply (c_int _ _ _ HC) in Hp. destruct Hp as (? & ? & Hi). apply (c_int' _ _ _ HC) in Hi. destruct Hi as (Hi & _). auto.
    - destruct Ho as [->|[->| ->]].
      + apply (c_add _ _ _ HC) in Hp; apply (c_add _ _ _ HC); tauto.
      + apply (c_mul _ _ _ HC) in Hp; apply (c_mul _ _ _ HC); tauto.
      + apply (c_int _ _ _ HC) in Hp. destruct Hp as (? & ? & Hi). apply (c_int' _ _ _ HC) in Hi. destruct Hi as (Hi & _). auto.
    - destruct o.
      + apply (proj1 (c_neg _ _ _ HC _)) in Hp. apply (c_neg _ _ _ HC). auto.
      + apply (c_sine _ _ _ HC) in Hp. destruct Hp as (? & ? & ?). auto.
      + apply (c_mag _ _ _ HC) in Hp. destruct Hp as (? & ? & ?). auto.
  Qed.

  Lemma P_rcast p e r : rcast p e = Some r -> P e -> fits p r /\ P r.
  Proof. intros H Hp. apply rcast_sound in H. destruct H. split; eauto using P_reorders. Qed.

  (* take apart what is known to be in the class *)
  Ltac pinv :=
    repeat match goal with
    | H : P (EBin OAdd _ _) |- _ => apply (c_add _ _ _ HC) in H; destruct H
    | H : P (EBin OSub _ _) |- _ => apply (c_sub _ _ _ HC) in H; destruct H
    | H : P (EBin OMul _ _) |- _ => apply (c_mul _ _ _ HC) in H; destruct H
    | H : P (EBin ODiv _ _) |- _ => apply (c_div _ _ _ HC) in H; destruct H
    | H : P (EBin OExp _ _) |- _ => apply (c_exp _ _ _ HC) in H; destruct H
    | H : P (EBin OLog _ _) |- _ => apply (c_log _ _ _ HC) in H; destruct H
    | H : P (EBin ODeriv _ _) |- _ => apply (c_deriv _ _ _ HC) in H; destruct H
    | H : P (EUn ONeg _) |- _ => apply (proj1 (c_neg _ _ _ HC _)) in H
    end.
  Ltac pgoal :=
    repeat match goal with
    | H : ?G |- ?G => exact H
    | |- True => exact I
    | |- P (real _) => apply (c_real _ _ _ HC)
    | |- P half => apply (c_real _ _ _ HC)
    | |- P (EReal _) => apply (c_real _ _ _ HC)
    | |- P EUndef => apply (c_undef _ _ _ HC)
    | |- P EEuler => apply (c_euler _ _ _ HC)
    | |- P (EBin OAdd _ _) => apply (c_add _ _ _ HC); split
    | |- P (EBin OSub _ _) => apply (c_sub _ _ _ HC); split
    | |- P (EBin OMul _ _) => apply (c_mul _ _ _ HC); split
    | |- P (EBin ODiv _ _) => apply (c_div _ _ _ HC); split
    | |- P (EBin OExp _ _) => apply (c_exp _ _ _ HC); split
    | |- P (EBin OLog _ _) => apply (c_log _ _ _ HC); split
    | |- P (EBin ODeriv _ _) => apply (c_deriv _ _ _ HC); split
    | |- P (EUn ONeg _) => apply (c_neg _ _ _ HC)
    | H : P (EMat _ _ _) |- P (EMat _ _ _) => apply (c_mat _ _ _ HC _ _ _ H)
    | H : P (EMag _) |- P (EMag _) => apply (c_mag _ _ _ HC _ H)
    | H : P (ESine _) |- P (ESine _) => apply (c_sine _ _ _ HC _ H)
    | |- abt al => apply (c_abt _ _ _ HC)
    | H : err |- thr al => apply (c_err _ _ _ HC H)
    | H : P EImag |- thr al => apply (c_imag _ _ _ HC H)
    | H : P EImag |- und al _ => apply (c_imag _ _ _ HC H)
    | H : P (EMat _ _ _) |- und al _ => apply (c_mat _ _ _ HC _ _ _ H)
    | |- _ /\ _ => split
    end.

  Definition optP (o : option expr) : Prop := match o with Some e => P e | None => True end.
  Definition listP (l : list expr) : Prop := List.Forall P l.

  Lemma pi_free e : P e -> no_pi e \/ P EPi.
  Proof.
    induction e as [c| |x| | | |r c d|o a IHa b IHb|o a IHa]; intros Hp;
      try (left; split; [discriminate|exact I]; fail).
    - right; exact Hp.
    - assert (P a /\ P b) as [Ha Hb].
      { destruct o; pinv; auto. apply (c_int _ _ _ HC) in Hp. tauto. }
      destruct (IHa Ha) as [H|H]; [|auto]. destruct (IHb Hb) as [H'|H']; [|auto].
      left. split; [discriminate|split; assumption].
    - assert (Ha : P a).
      { destruct o; pinv; auto. - apply (c_sine _ _ _ HC) in Hp. tauto. - apply (c_mag _ _ _ HC) in Hp. tauto. }
      destruct (IHa Ha) as [H|H]; [|auto]. left. split; [discriminate|assumption].
  Qed.

  Lemma spec_eq er a b : P a -> spec er (m_eq a b) (fun _ => True).
  Proof.
    intros Ha. unfold m_eq. destruct (equals a b) as [c|] eqn:E.
    - now right.
    - right. simpl. destruct (pi_free a Ha) as [H|H]; [|split; [exact (c_pi _ _ _ HC H)|discriminate]].
      now apply (equals_total a b) in H.
  Qed.

  Section Steps.
    Variables (S : expr -> M expr) (D : expr -> expr -> M expr) (I : expr -> expr -> M (option expr)).
    Hypothesis HS : forall e, P e -> spec False (S e) P.
    Hypothesis HD : forall e v, P e -> P v -> spec False (D e v) P.
    Hypothesis HI : P (EInt EUndef EUndef) -> forall e v, P e -> P v -> spec False (I e v) optP.
    Variable er : Prop.

    Lemma spec_S e : P e -> spec er (S e) P.
    Proof. intros H. eapply spec_weaken; [apply HS, H|tauto|auto]. Qed.
    Lemma spec_D e v : P e -> P v -> spec er (D e v) P.
    Proof. intros H1 H2. eapply spec_weaken; [apply HD; assumption|tauto|auto]. Qed.
    Lemma spec_Sv e : P e -> spec er (m_value (S e)) P.
    Proof. intros H. eapply spec_value; [apply HS, H|tauto]. Qed.
    Lemma spec_St e : P e -> spec er (m_try (S e)) (fun x => match x with inl a => P a | inr _ => False end).
    Proof. intros H. apply spec_try, HS, H. Qed.
    Lemma spec_throw {A} (Q : A -> Prop) : thr al -> spec er (throw BadExpectedAccess) Q.
    Proof. right. split; [assumption|discriminate]. Qed.
    Lemma spec_undef {A} x (Q : A -> Prop) : und al x -> spec er (undef x) Q.
    Proof. now right. Qed.
    Lemma spec_abort {A} (Q : A -> Prop) : abt al -> spec er abort Q.
    Proof. now right. Qed.

    (* the result of a cast is in the class *)
    Ltac cast :=
      match goal with
      | |- context [rcast ?p ?e] =>
        let r := fresh "r" in let E := fresh "E" in let F := fresh "F" in let K := fresh "K" in
        destruct (rcast p e) as [r|] eqn:E;
        [ assert (F : fits p r /\ P r) by (apply (P_rcast p e r E); pgoal);
          destruct F as [F K];
          unfold pMulExp, pMulRE, pMul, pAdd, pSub, pDiv, pExp, pLog, pMulImag, pMulVar,
            pExpImag, pExpVar, pExpReal in F;
          fits_inv; clear E; pinv
        | clear E ];
        cbn [as_real as_var as_bin as_binvar as_binreal as_binmulre option_map]
      end.
    Ltac prim :=
      lazymatch goal with
      | |- spec _ (S _) _ => apply spec_S; pgoal
      | |- spec _ (D _ _) _ => apply spec_D; pgoal
      | |- spec _ (m_value (S _)) _ => apply spec_Sv; pgoal
      | |- spec _ (m_try (S _)) _ => apply spec_St; pgoal
      | |- spec _ (m_eq _ _) _ => apply spec_eq; pgoal
      | |- spec _ (emit _ _) _ => apply spec_emit
      | |- spec _ (tell _) _ => apply spec_tell
      end.
    Ltac sp :=
      repeat (cbv zeta; match goal with
      | |- spec _ (ret _) _ => apply spec_ret; cbn [optP]; pgoal
      | |- spec _ no _ => apply spec_ret; exact Logic.I
      | |- spec _ (yes _) _ => apply spec_ret; cbn [optP]; pgoal
      | |- spec _ (yesM _) _ => unfold yesM
      | |- spec _ (throw _) _ => apply spec_throw; pgoal
      | |- spec _ (undef _) _ => apply spec_undef; pgoal
      | |- spec _ abort _ => apply spec_abort; pgoal
      | |- spec _ (bind (bind _ _) _) _ => rewrite bind_bind
      | |- spec _ (bind _ _) _ => eapply spec_bind; [prim|intros ? ?]
      | |- spec _ (match rcast _ _ with _ => _ end) _ => cast
      | |- spec _ (match as_real _ with _ => _ end) _ => cast
      | |- spec _ (match as_var _ with _ => _ end) _ => cast
      | |- spec _ (match as_bin _ with _ => _ end) _ => cast
      | |- spec _ (match as_binvar _ with _ => _ end) _ => cast
      | H : match ?x with inl _ => _ | inr _ => _ end |- _ => destruct x; [|contradiction]
      | |- spec _ (match ?x with _ => _ end) _ => destruct x; pinv
      | |- spec _ _ _ => prim
      end).

    Definition rule_ok (r : expr -> expr -> rule) : Prop := forall a b, P a -> P b -> spec er (r a b) optP.
    Lemma spec_first (rs : list (expr -> expr -> rule)) k a b :
      List.Forall rule_ok rs -> (forall a b, P a -> P b -> spec er (k a b) P) ->
      P a -> P b -> spec er (first_rule rs k a b) P.
    Proof.
      intros H Hk Ha Hb. induction H as [|r rs Hr _ IH]; simpl; auto.
      eapply spec_bind; [apply Hr; assumption|]. intros [e|] He; auto. now apply spec_ret.
    Qed.
    Lemma spec_operands a b k : P a -> P b -> (forall a b, P a -> P b -> spec er (k a b) P) ->
      spec er (operands S a b k) P.
    Proof.
      intros Ha Hb Hk. unfold operands. eapply spec_bind; [apply spec_St, Ha|]. intros [a'|s] H; [|contradiction].
      eapply spec_bind; [apply spec_St, Hb|]. intros [b'|s] H'; [|contradiction]. auto.
    Qed.

    Lemma spec_scan (f : expr -> M (option expr)) l :
      (forall v, P v -> spec er (f v) optP) -> listP l ->
      spec er (scan f l) (fun o => match o with Some l => listP l | None => True end).
    Proof.
      intros Hf Hl. induction Hl as [|v l Hv Hl IH]; simpl; [now apply spec_ret|].
      eapply spec_bind; [apply Hf, Hv|]. intros [v'|] Hv'; [apply spec_ret; now constructor|].
      eapply spec_bind; [apply IH|]. intros [l'|] Hl'; apply spec_ret; simpl; auto. now constructor.
    Qed.
    Lemma spec_push f l d :
      (forall v, P v -> spec er (f v) optP) -> spec er d P -> listP l -> spec er (scan_or_push f l d) listP.
    Proof.
      intros Hf Hd Hl. unfold scan_or_push. eapply spec_bind; [apply spec_scan; assumption|].
      intros [l'|] Hl'; [now apply spec_ret|]. eapply spec_bind; [exact Hd|]. intros e He.
      apply spec_ret, Forall_app. split; auto.
    Qed.
    Lemma spec_foldM f l acc :
      (forall acc x, listP acc -> P x -> spec er (f acc x) listP) -> listP l -> listP acc -> spec er (foldM f acc l) listP.
    Proof.
      intros Hf Hl. revert acc. induction Hl as [|x l Hx Hl IH]; intros acc Hacc; simpl; [now apply spec_ret|].
      eapply spec_bind; [apply Hf; assumption|]. auto.
    Qed.

    Lemma spec_add_collect acc x : listP acc -> P x -> spec er (add_collect S acc x) listP.
    Proof.
      intros Hacc Hx. unfold add_collect, add_collect_img, add_collect_var, add_collect_exp.
      repeat cast; try (apply spec_push; [intros v Hv|sp|exact Hacc]; sp).
      apply spec_ret, Forall_app. split; auto.
    Qed.
    Lemma spec_mul_collect acc x : listP acc -> P x -> spec er (mul_collect S acc x) listP.
    Proof.
      intros Hacc Hx. unfold mul_collect, mul_collect_img, mul_collect_exp, mul_collect_any.
      repeat cast; try (apply spec_push; [intros v Hv|sp|exact Hacc]; sp).
    Qed.
    Lemma spec_div_collect acc x : listP acc -> P x -> spec er (div_collect S acc x) listP.
    Proof.
      intros Hacc Hx. unfold div_collect, div_by_var, div_by_varexp, div_by_exp, div_by_any.
      repeat cast; try (apply spec_push; [intros v Hv|sp|exact Hacc]; sp).
    Qed.

    Lemma P_flatten o a b : (forall a b, P (EBin o a b) -> P a /\ P b) -> P a -> P b -> listP (flatten o a b).
    Proof. intros H Ha Hb. apply Forall_app. split; now apply flat_app. Qed.
    Lemma P_strip_coef v : P v -> P (strip_coef v).
    Proof. intros H. unfold strip_coef. cast; auto. destruct (n_eqb _ _); pgoal. Qed.
    Lemma P_strip_exp v : P v -> P (strip_exp v).
    Proof. intros H. unfold strip_exp. cast; auto. destruct (n_eqb _ _); pgoal. Qed.
    Lemma listP_map f l : (forall v, P v -> P (f v)) -> listP l -> listP (map f l).
    Proof. intros Hf H. induction H; simpl; constructor; auto. Qed.
    Lemma listP_filter f l : listP l -> listP (filter f l).
    Proof. intros H. induction H; simpl; [constructor|]. destruct (f x); auto. now constructor. Qed.

    Lemma spec_add_rest a b : P a -> P b -> spec er (add_rest S a b) P.
    Proof.
      intros Ha Hb. unfold add_rest. eapply spec_bind.
      { apply spec_foldM; [apply spec_add_collect| |constructor].
        apply P_flatten; auto. intros. now apply (c_add _ _ _ HC). }
      intros vals Hv. eapply spec_bind; [apply spec_emit|intros _ _].
      destruct (build OAdd _) as [e|] eqn:E; [|sp]. apply spec_ret. revert E. apply build_P.
      - intros. pgoal.
      - apply listP_filter, listP_map; [exact P_strip_coef|exact Hv].
    Qed.
    Lemma spec_mul_rest a b : P a -> P b -> spec er (mul_rest S a b) P.
    Proof.
      intros Ha Hb. unfold mul_rest. eapply spec_bind.
      { apply spec_foldM; [apply spec_mul_collect| |constructor].
        apply P_flatten; auto. intros. now apply (c_mul _ _ _ HC). }
      intros vals Hv.
      destruct (build OMul _) as [e|] eqn:E; [|sp]. apply spec_ret. revert E. apply build_P.
      - intros. pgoal.
      - apply listP_map; [|exact Hv]. intros. now apply P_strip_coef, P_strip_exp.
    Qed.

    Lemma P_factors e : P e -> listP (factors e).
    Proof.
      intros H. unfold factors. cast.
      - apply P_flatten; auto. intros. now apply (c_mul _ _ _ HC).
      - constructor; auto.
    Qed.
    Lemma P_split l : listP l -> listP (fst (split_div l)) /\ listP (snd (split_div l)).
    Proof.
      intros H. induction H as [|e l He Hl [IH1 IH2]]; simpl; [split; constructor|]. simpl in *.
      destruct e as [c| |x| | | |r c d|o a b|o a]; try (split; [constructor; auto|auto]; fail).
      destruct o; try (split; [constructor; auto|auto]; fail).
      pinv. split; simpl; constructor; auto.
    Qed.
    Lemma P_place v : P v -> match div_place v with Some (inl e) => P e | Some (inr e) => P e | None => True end.
    Proof.
      intros H. unfold div_place. repeat cast; auto; repeat (destruct (n_eqb _ _) || destruct (n_ltb _ _)); pgoal.
    Qed.
    Lemma P_partition l : listP l -> listP (fst (partition_place l)) /\ listP (snd (partition_place l)).
    Proof.
      intros H. induction H as [|e l He Hl [IH1 IH2]]; simpl; [split; constructor|].
      pose proof (P_place e He) as K. destruct (partition_place l) as [n d]. simpl in *.
      destruct (div_place e) as [[x|x]|]; simpl; split; auto; constructor; auto.
    Qed.
    Lemma P_one_or_build l e : listP l -> one_or_build l = Some e -> P e.
    Proof.
      intros H. unfold one_or_build. destruct l as [|a [|b l]]; try discriminate.
      - intros [= <-]. now inversion H.
      - apply build_P; auto. intros. pgoal.
    Qed.

    Lemma spec_div_rest a b : P a -> P b -> spec er (div_rest S a b) P.
    Proof.
      intros Ha Hb. unfold div_rest.
      pose proof (P_split _ (P_factors a Ha)) as [H1 H2]. destruct (split_div (factors a)) as [r x]. simpl in H1, H2.
      eapply spec_bind.
      { apply spec_foldM; [apply spec_div_collect| |exact H1]. apply Forall_app. split; [apply P_factors, Hb|exact H2]. }
      intros vals Hv. eapply spec_bind; [apply spec_tell|intros _ _].
      pose proof (P_partition _ Hv) as [K1 K2]. destruct (partition_place vals) as [n d]. simpl in K1, K2.
      assert (L1 : listP (map strip_exp n)) by (apply listP_map; [exact P_strip_exp|exact K1]).
      assert (L2 : listP (map strip_exp d)) by (apply listP_map; [exact P_strip_exp|exact K2]).
      destruct (one_or_build (map strip_exp n)) as [p|] eqn:E1, (one_or_build (map strip_exp d)) as [q|] eqn:E2;
        apply spec_ret; pgoal; eauto using P_one_or_build.
    Qed.

    Ltac rules := repeat (apply Forall_cons; [intros ? ? ? ?|]); try apply Forall_nil.
    Ltac hd t := match t with ?f _ => hd f | _ => t end.
    Ltac unf := match goal with |- spec _ ?t _ => let h := hd t in unfold h end.

    Lemma spec_add a b : P a -> P b -> spec er (visit_add S a b) P.
    Proof.
      intros Ha Hb. apply spec_operands; auto. intros a' b' Ha' Hb'. apply spec_first; auto using spec_add_rest.
      unfold add_rules. rules; unf; sp.
    Qed.
    Lemma spec_sub a b : P a -> P b -> spec er (visit_sub S a b) P.
    Proof.
      intros Ha Hb. apply spec_operands; auto. intros a' b' Ha' Hb'. apply spec_first; auto.
      - unfold sub_rules. rules; unf; sp.
      - intros. sp.
    Qed.
    Lemma spec_mul prefer a b : P a -> P b -> spec er (visit_mul S prefer a b) P.
    Proof.
      intros Ha Hb. apply spec_operands; auto. intros a' b' Ha' Hb'. apply spec_first; auto using spec_mul_rest.
      unfold mul_rules. rules; unf; sp.
    Qed.
    Lemma spec_div a b : P a -> P b -> spec er (visit_div S a b) P.
    Proof.
      intros Ha Hb. apply spec_operands; auto. intros a' b' Ha' Hb'. apply spec_first; auto using spec_div_rest.
      unfold div_rules. rules; unf; sp.
    Qed.
    Lemma spec_exp a b : P a -> P b -> spec er (visit_exp S a b) P.
    Proof.
      intros Ha Hb. apply spec_operands; auto. intros a' b' Ha' Hb'. apply spec_first; auto.
      - unfold exp_rules. rules; unf.
        7: { cast; [|sp]. destruct (_ && _)%bool; [|sp].
             destruct (c_half _ _ _ HC) as [Hi|Hb0]; [sp|now apply spec_escape]. }
        all: sp.
      - intros. sp.
    Qed.
    Lemma spec_log a b : P a -> P b -> spec er (visit_log S a b) P.
    Proof.
      intros Ha Hb. apply spec_operands; auto. intros a' b' Ha' Hb'.
      destruct (c_logneg _ _ _ HC) as [[Hi Hpi]|Hlog].
      - apply spec_first; auto; [|intros; sp]. unfold log_rules. rules; unf; sp.
      - assert (K : forall x y, P x -> P y -> log_1285 x y = no -> spec er (log_1305 x y) optP).
        { intros x y Hx Hy. unfold log_1285, log_1305. destruct (rcast _ _) as [r|] eqn:E; [|intros; sp].
          pose proof (proj1 (rcast_sound _ _ _ E)) as F. fits_inv. intros K.
          destruct (n_ltb c n0) eqn:L; [|sp]. now rewrite (Hlog c L) in K. }
        assert (K2 : forall x y, log_1285 x y = no \/ exists e, log_1285 x y = yes e /\ (P x -> P y -> P e)).
        { intros x y. unfold log_1285. destruct (rcast _ _) as [r|] eqn:E; [|now left].
          destruct r as [| | | | | | |o r1 [c| | | | | | | |]|]; try now left.
          destruct (n_leb c n0); [right; exists EUndef; split; [reflexivity|intros; pgoal]|].
          destruct (n_eqb c n1); [right; exists (real 0); split; [reflexivity|intros; pgoal]|now left]. }
        unfold log_rules. cbn [first_rule].
        apply (spec_bind _ _ _ _ optP); [unfold log_1279; sp|]. intros [e|] He; [sp|].
        destruct (K2 a' b') as [E|(e & E & Pe)]; rewrite E.
        + unfold no. rewrite bind_ret.
          apply (spec_bind _ _ _ _ optP); [unfold log_1297; sp|]. intros [e|] He1; [sp|].
          apply (spec_bind _ _ _ _ optP); [now apply K|]. intros [e|] He2; [sp|].
          apply (spec_bind _ _ _ _ optP); [unfold log_1312; sp|]. intros [e|] He3; [sp|].
          apply (spec_bind _ _ _ _ optP); [unfold log_1319; sp|]. intros [e|] He4; sp.
        + unfold yes. rewrite bind_ret. apply spec_ret. auto.
    Qed.

    Lemma spec_neg a : P a -> spec er (visit_neg S a) P.
    Proof. intros Ha. unfold visit_neg. sp. Qed.
    Lemma spec_sine a : P a -> spec er (visit_sine S a) P.
    Proof. intros Ha. unfold visit_sine. sp. Qed.
    Lemma spec_mag a : P (EMag a) -> spec er (visit_mag S a) P.
    Proof.
      intros Hm. assert (Ha : P a) by apply (c_mag _ _ _ HC _ Hm). unfold visit_mag.
      eapply spec_bind; [prim|]. intros s Hs. apply spec_first; auto.
      - unfold mag_rules. rules; unf; sp.
      - intros. sp.
    Qed.
    Lemma spec_deriv a b : P a -> P b -> spec er (visit_deriv S D a b) P.
    Proof. intros Ha Hb. unfold visit_deriv. apply spec_operands; auto. intros a' b' Ha' Hb'. sp. Qed.
    Lemma spec_I e v : P (EInt EUndef EUndef) -> P e -> P v -> spec er (I e v) optP.
    Proof. intros H H1 H2. eapply spec_weaken; [apply HI; assumption|tauto|auto]. Qed.
    Lemma spec_int a b : P (EInt a b) -> spec er (visit_int S I a b) P.
    Proof.
      intros H. apply (c_int _ _ _ HC) in H. destruct H as (Ha & Hb & H). unfold visit_int.
      apply spec_operands; auto. intros a' b' Ha' Hb'. eapply spec_bind; [apply spec_I; auto|].
      intros [e|] He; sp.
    Qed.

    Lemma spec_simp_step prefer e : P e -> spec er (simp_step S D I prefer e) P.
    Proof.
      intros H. destruct e as [c| |x| | | |r c d|o a b|o a]; try now apply spec_ret.
      - destruct o; cbn [simp_step]; try (pinv; auto using spec_add, spec_sub, spec_mul, spec_div, spec_exp, spec_log, spec_deriv; fail).
        now apply spec_int.
      - destruct o; cbn [simp_step].
        + pinv. now apply spec_neg.
        + apply (c_sine _ _ _ HC) in H. now apply spec_sine.
        + now apply spec_mag.
    Qed.

    Section Calculus.
    Variable V : expr -> expr -> M expr.
    Hypothesis HV : forall e v, P e -> P v -> spec err (V e v) P.
    Hypothesis Her : err -> er.

    Lemma spec_V e v : P e -> P v -> spec er (V e v) P.
    Proof. intros H1 H2. eapply spec_weaken; [apply HV; assumption|exact Her|auto]. Qed.
    Lemma spec_Vt e v : P e -> P v -> spec er (m_try (V e v)) (fun x => match x with inl a => P a | inr _ => err end).
    Proof. intros H1 H2. now apply spec_try, HV. Qed.
    Lemma spec_fail {A} s (Q : A -> Prop) : err -> spec er (fail s) Q.
    Proof. intros H. right. simpl. auto. Qed.

    Ltac vprim :=
      lazymatch goal with
      | |- spec _ (V _ _) _ => apply spec_V; pgoal
      | |- spec _ (m_try (V _ _)) _ => apply spec_Vt; pgoal
      | |- spec _ _ _ => prim
      end.
    Ltac vsp :=
      repeat (cbv zeta; match goal with
      | |- spec _ (fail _) _ => apply spec_fail; assumption
      | |- spec _ (throw _) _ => apply spec_throw, (c_err _ _ _ HC); assumption
      | |- spec _ (bind (bind _ _) _) _ => rewrite bind_bind
      | |- spec _ (bind _ _) _ => eapply spec_bind; [vprim|intros ? ?]
      | H : match ?x with inl _ => _ | inr _ => False end |- _ => destruct x; [|contradiction]
      | H : match ?x with inl _ => _ | inr _ => _ end |- _ => destruct x
      | |- spec _ (V _ _) _ => vprim
      | |- spec _ _ _ => progress sp
      end).

    Lemma spec_diff_deriv a w v : P a -> P w -> P v -> spec er (diff_deriv S V a w v) P.
    Proof. intros Ha Hw Hv. unfold diff_deriv. vsp. Qed.

    Lemma spec_diff_step multi e v : P e -> P v -> spec er (diff_step S V D I multi e v) P.
    Proof.
      intros He Hv. destruct e as [c| |x| | | |r c d|o a b|o a]; cbn [diff_step]; try (apply spec_ret; pgoal; fail).
      - unfold diff_var. vsp.
      - apply spec_fail. apply (c_mat _ _ _ HC _ _ _ He).
      - destruct (is_var v); [|apply spec_ret; pgoal]. destruct o; pinv.
        + unfold diff_addsub. vsp.
        + unfold diff_addsub. vsp.
        + unfold diff_mul. vsp.
        + unfold diff_div. vsp. apply spec_first; auto.
          * rules; unf; vsp.
          * intros. vsp.
        + unfold diff_exp. apply spec_first; auto; [| |pgoal].
          * rules; unf; vsp.
          * intros. unfold diff_exp_gen. vsp.
        + unfold diff_log, simp_or_keep. cast; [|cast]; vsp.
          eapply spec_bind; [apply spec_diff_deriv; pgoal|intros ? ?]. vsp.
        + eapply spec_bind; [apply spec_emit|intros ? ?]. apply spec_diff_deriv; pgoal.
        + apply (c_int _ _ _ HC) in He. destruct He as (Ha & Hb & Hi).
          unfold diff_int. eapply spec_bind; [apply spec_I; auto|]. intros [e|] Pe; vsp.
          apply (c_int' _ _ _ HC Hi).
      - destruct o; pinv.
        + destruct (is_var v); [|apply spec_ret; pgoal]. unfold diff_neg. vsp.
        + apply spec_fail. apply (c_sine _ _ _ HC _ He).
        + apply spec_fail. apply (c_mag _ _ _ HC _ He).
    Qed.

    Lemma spec_differentiate e v : P e -> P v -> spec False (differentiate_with V e v) P.
    Proof.
      intros He Hv. unfold differentiate_with. eapply spec_bind; [apply spec_try, HV; assumption|].
      intros [d|s] Hd; apply spec_ret; pgoal.
    Qed.
    End Calculus.

    Section Integrals.
    Hypothesis Hi : P (EInt EUndef EUndef).
    Lemma P_C : P C_.
    Proof. apply (c_int' _ _ _ HC Hi). Qed.
    Lemma P_Int a b : P a -> P b -> P (EInt a b).
    Proof. apply (c_int' _ _ _ HC Hi). Qed.
    Lemma spec_deref e v : P e -> P v -> spec er (deref (I e v)) P.
    Proof.
      intros He Hv. unfold deref. eapply spec_bind; [apply spec_I; assumption|]. intros [x|] Hx.
      - now apply spec_ret.
      - apply spec_undef, (c_int' _ _ _ HC Hi).
    Qed.
    Ltac igoal := cbn [optP]; repeat (pgoal; match goal with
      | |- P C_ => apply P_C
      | |- P (EInt _ _) => apply P_Int
      | |- und al _ => apply (c_int' _ _ _ HC Hi)
      end).
    Ltac iprim :=
      lazymatch goal with
      | |- spec _ (I _ _) _ => apply spec_I; [exact Hi|igoal|igoal]
      | |- spec _ (deref (I _ _)) _ => apply spec_deref; igoal
      | |- spec _ (S _) _ => apply spec_S; igoal
      | |- spec _ (D _ _) _ => apply spec_D; igoal
      | |- spec _ (m_value (S _)) _ => apply spec_Sv; igoal
      | |- spec _ (m_try (S _)) _ => apply spec_St; igoal
      | |- spec _ (m_eq _ _) _ => apply spec_eq; igoal
      | |- spec _ (flag _) _ => apply spec_emit
      end.
    Ltac isp :=
      repeat (cbv zeta; match goal with
      | |- spec _ (ret _) _ => apply spec_ret; igoal
      | |- spec _ (unev _ _) _ => unfold unev
      | |- spec _ (give_up _) _ => unfold give_up
      | |- spec _ (some _) _ => unfold some
      | |- spec _ (undef _) _ => apply spec_undef; igoal
      | |- spec _ (bind (bind _ _) _) _ => rewrite bind_bind
      | |- spec _ (bind (ret _) _) _ => rewrite bind_ret
      | |- spec _ (bind _ _) _ => eapply spec_bind; [iprim|intros ? ?]
      | |- spec _ (match rcast _ _ with _ => _ end) _ => cast
      | |- spec _ (match as_bin _ with _ => _ end) _ => cast
      | H : match ?x with inl _ => _ | inr _ => _ end |- _ => destruct x; [|contradiction]
      | |- spec _ (match ?x with _ => _ end) _ => destruct x; pinv
      | |- spec _ _ _ => iprim
      end).

    Lemma P_lipet a b : P a -> P b -> P (fst (lipet a b)) /\ P (snd (lipet a b)).
    Proof.
      intros Ha Hb. unfold lipet.
      repeat (match goal with
              | |- context [if ?c then _ else _] => destruct c
              | |- context [match rcast ?p ?e with _ => _ end] => destruct (rcast p e)
              end); simpl; auto.
    Qed.
    Lemma spec_split e : P e -> spec er (split_coef S e) (fun ce => P (fst ce) /\ P (snd ce)).
    Proof. intros He. unfold split_coef. isp; split; simpl; igoal. Qed.
    Lemma spec_parts a b v : P a -> P b -> P v -> spec er (int_parts S D I a b v) optP.
    Proof.
      intros Ha Hb Hv. unfold int_parts. pose proof (P_lipet a b Ha Hb) as [Hu Hd].
      destruct (lipet a b) as [u dv]. simpl in Hu, Hd. isp.
      eapply spec_bind; [now apply spec_split|]. intros [vc v1] [? ?].
      eapply spec_bind; [now apply spec_split|]. intros [dc d1] [? ?]. cbn [fst snd] in *. isp.
      cast; igoal.
    Qed.

    Lemma spec_integ_step e v : P e -> P v -> spec er (integ_step S D I e v) optP.
    Proof.
      intros He Hv. destruct e as [c| |x| | | |r c d|o a b|o a]; cbn [integ_step]; try iprim.
      - unfold int_real. isp.
      - unfold int_var. isp.
      - unfold int_euler. isp.
      - isp.
      - destruct o; try iprim; pinv.
        + destruct (is_var v); [|isp]. unfold int_add. isp.
        + destruct (is_var v); [|isp]. unfold int_sub. isp.
        + destruct (is_var v); [|isp]. unfold int_mul. isp. now apply spec_parts.
        + destruct (is_var v); [|isp]. unfold int_div. isp.
        + destruct v; try (isp; fail). unfold int_exp. isp.
          apply (spec_bind _ _ _ _ optP); [unfold int_exp_pow, yes, no, yesM; isp|]. intros [e1|] He1; [isp|].
          apply (spec_bind _ _ _ _ optP); [unfold int_exp_euler, yes, no, yesM; isp|]. intros [e2|] He2; isp.
        + unfold int_log. eapply spec_bind; [iprim|]. intros [|] _; [unfold int_ln|unfold int_logb; isp].
          apply (spec_bind _ _ _ _ (fun _ => True)); [destruct (is_type _ _); [iprim|now apply spec_ret]|]. intros q _. isp.
      - destruct o; isp.
        apply (c_mag _ _ _ HC _ He).
    Qed.
    End Integrals.
  End Steps.

  (** All entry points stay in the class. *)
  Theorem knot_closed n :
    (forall prefer e, P e -> spec False (simp n prefer e) P) /\
    (forall multi e v, P e -> P v -> spec err (diff n multi e v) P) /\
    (P (EInt EUndef EUndef) -> forall e v, P e -> P v -> spec False (integ n e v) optP).
  Proof.
    induction n as [|n (IHs & IHd & IHi)]; [split; [|split]; intros; now right|].
    assert (HD : forall e v, P e -> P v -> spec False (differentiate_with (diff n false) e v) P).
    { intros. apply spec_differentiate; auto. }
    split; [|split].
    - intros prefer e He.
      change (spec False (simp_step (simp n prefer) (differentiate_with (diff n false)) (integ n) prefer e) P).
      apply spec_simp_step; auto.
    - intros multi e v He Hv.
      change (spec err (diff_step (simp n false) (diff n multi) (differentiate_with (diff n false)) (integ n) multi e v) P).
      apply spec_diff_step; auto.
    - intros Hi e v He Hv.
      change (spec False (integ_step (simp n false) (differentiate_with (diff n false)) (integ n) e v) optP).
      apply spec_integ_step; auto.
  Qed.

  Lemma differentiate_closed n e v : P e -> P v -> spec False (differentiate n e v) P.
  Proof. intros He Hv. apply spec_differentiate; auto. intros. now apply knot_closed. Qed.

  Lemma operator_closed n o a b : P (EBin o a b) -> spec False (operator n o a b) P.
  Proof.
    intros H. unfold operator. eapply spec_bind; [apply spec_try, knot_closed, H|].
    intros [e|s] He; [now apply spec_ret|contradiction].
  Qed.

  Lemma P_bin o a b : P (EBin o a b) -> P a /\ P b /\ forall a' b', P a' -> P b' -> P (EBin o a' b').
  Proof.
    intros H. destruct o; pinv; repeat split; auto; intros; pgoal.
    1,2: apply (c_int _ _ _ HC) in H; tauto.
    apply (c_int _ _ _ HC) in H. apply (c_int' _ _ _ HC (proj2 (proj2 H))); assumption.
  Qed.
  Lemma P_un o a : P (EUn o a) -> P a /\ forall a', P a' -> P (EUn o a').
  Proof.
    intros H. destruct o; pinv.
    - split; auto. intros; pgoal.
    - apply (c_sine _ _ _ HC) in H; tauto.
    - apply (c_mag _ _ _ HC) in H; tauto.
  Qed.

  Lemma subst_closed n x e val : P e -> P val -> spec False (subst n e (EVar x) val) P.
  Proof.
    intros He Hval. induction e as [c| |y| | | |r c d|o a IHa b IHb|o a IHa]; simpl; try now apply spec_ret.
    - destruct (String.eqb x y); now apply spec_ret.
    - destruct (P_bin _ _ _ He) as (Ha & Hb & Hc).
      eapply spec_bind; [apply IHa, Ha|]. intros a' Ha'. eapply spec_bind; [apply IHb, Hb|]. intros b' Hb'.
      eapply spec_bind; [apply spec_try, knot_closed, Hc; assumption|].
      intros [e|s] Hs; [now apply spec_ret|contradiction].
    - destruct (P_un _ _ He) as (Ha & Hc). eapply spec_bind; [apply IHa, Ha|]. intros a' Ha'. apply spec_ret; auto.
  Qed.
End Closure.
