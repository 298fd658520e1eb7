(** Property C74: substituting a number evaluates. *)
From Coq Require Import String Bool Arith ZArith QArith Reals Lra Lia Qreals.
From Flocq Require Import Core BinarySingleNaN.
From Coquelicot Require Import Coquelicot.
From Coq Require Import List.
From Verif Require Import Base Num Expr Ghost Simplify Calculus Spec SpecPoly SpecEvaluate QNum DoubleNum MonadProofs FuelProofs PowProofs PropertiesSimplify PropertiesPoly.
Import ListNotations.
Open Scope string_scope.
Open Scope Z_scope.
Open Scope list_scope.

(** Substitute gives [r], if given enough fuel. *)
Definition substitutes_to {num} {N : NumOps num} (e : expr num) (x : string) (val r : expr num) : Prop :=
  exists m, forall n, (m <= n)%nat -> snd (subst n e (EVar x) val) = Ok r.

Section Evaluate.
  Context {num : Type} {N : NumOps num}.
  Notation expr := (expr num).
  Variable x : string.

  Lemma written_literal c (e : expr) : arithmetic_in x e -> literal (written x c e).
  Proof.
    induction e as [d| |y| | | |r k d|o a IHa b IHb|o a IHa]; cbn [arithmetic_in written literal]; try tauto.
    - intros ->. now rewrite String.eqb_refl.
    - destruct o; tauto.
  Qed.
  Lemma subst_fold c (e : expr) : arithmetic_in x e -> forall n, (height e <= n)%nat ->
    snd (subst n e (EVar x) (EReal c)) = Ok (EReal (fold_lit (written x c e))).
  Proof.
    induction e as [d| |y| | | |r k d|o a IHa b IHb|o a IHa]; cbn [arithmetic_in written height]; try tauto.
    - intros ->. rewrite String.eqb_refl. intros n _. cbn [subst rcast]. now rewrite String.eqb_refl.
    - intros A n Hn. assert (K : arithmetic_in x a /\ arithmetic_in x b) by (destruct o; tauto). destruct K as [Ka Kb].
      destruct n as [|n]; [lia|]. cbn [subst].
      rewrite (snd_bind_ok _ _ _ (IHa Ka (Datatypes.S n) ltac:(lia))), (snd_bind_ok _ _ _ (IHb Kb (Datatypes.S n) ltac:(lia))).
      set (va := fold_lit (written x c a)). set (vb := fold_lit (written x c b)).
      assert (F : snd (simp (Datatypes.S n) false (EBin o (EReal va) (EReal vb))) = Ok (EReal (fold_lit (EBin o (EReal va) (EReal vb))))).
      { apply literal_fold; [destruct o; cbn; tauto|]. cbn. destruct a, b; cbn in Hn; lia. }
      rewrite (snd_bind_ok _ _ _ (snd_try_ok _ _ F)). reflexivity.
  Qed.
End Evaluate.

(** Substituting a number for the variable of an arithmetic expression gives
    the number that the expression with the number written in its place
    simplifies to. *)
Theorem c74_substitute : forall (num : Type) (N : NumOps num) (e : expr num) x c, arithmetic_in x e ->
  exists v, substitutes_to e x (EReal c) (EReal v) /\ simplifies_to (written x c e) (EReal v).
Proof.
  intros num N e x c A. exists (fold_lit (written x c e)). split.
  - exists (height e). intros n Hn. now apply subst_fold.
  - exists (height (written x c e)). intros n prefer Hn. apply literal_fold; [|exact Hn]. now apply written_literal.
Qed.
Print Assumptions c74_substitute.

(** It is the value that the operations of the machine give, when no product
    has a left factor within EPSILON of 0 and no power the base 0. *)
Theorem c74_machine : forall (num : Type) (N : NumOps num), ieee_units N ->
  forall (e : expr num) x c, arithmetic_in x e -> ordinary (written x c e) ->
  substitutes_to e x (EReal c) (EReal (double_value (written x c e))).
Proof.
  intros num N U e x c A O. exists (height e). intros n Hn. rewrite <- fold_double; auto.
  - now apply subst_fold.
  - now apply written_literal.
Qed.
Print Assumptions c74_machine.

(** ** Integer polynomials at integers *)
Section Integers.
  Context {num : Type} {N : NumOps num}.
  Variables (lit : num -> Z -> Prop) (ok : Z -> Prop).
  Hypothesis IL : IntLits N lit ok.
  Hypothesis PW : exact_powers N lit ok.
  Notation expr := (expr num).
  Variables (x : string) (c : num) (a : Z).
  Hypothesis Hc : lit c a.

  Lemma value_app ts us : value_at a (ts ++ us) = value_at a ts + value_at a us.
  Proof. unfold value_at. induction ts as [|t ts IH]; cbn [app fold_right]; [lia|rewrite IH; lia]. Qed.
  Lemma size_app ts us : size_at a (ts ++ us) = size_at a ts + size_at a us.
  Proof. unfold size_at. induction ts as [|t ts IH]; cbn [app fold_right]; [lia|rewrite IH; lia]. Qed.
  Lemma term_scale z t : term_at a (fst t, z * snd t) = z * term_at a t.
  Proof. unfold term_at. cbn [fst snd]. ring. Qed.
  Lemma value_scale z ts : value_at a (scale z ts) = z * value_at a ts.
  Proof. unfold value_at, scale. induction ts as [|t ts IH]; cbn [map fold_right]; [lia|rewrite IH, term_scale; ring]. Qed.
  Lemma size_scale z ts : size_at a (scale z ts) = Z.abs z * size_at a ts.
  Proof. unfold size_at, scale. induction ts as [|t ts IH]; cbn [map fold_right]; [lia|rewrite IH, term_scale, Z.abs_mul; ring]. Qed.
  Lemma size_value ts : Z.abs (value_at a ts) <= size_at a ts.
  Proof. unfold value_at, size_at. induction ts as [|t ts IH]; cbn [fold_right]; lia. Qed.
  Lemma ok_small z y : ok z -> Z.abs y <= Z.abs z -> ok y.
  Proof. apply (il_ok_le _ _ _ IL). Qed.
  Lemma zero_lit : lit n0 0. Proof. apply (il_of_Z _ _ _ IL). eapply ok_small; [apply (il_ok_2 _ _ _ IL)|lia]. Qed.
  Lemma one_lit : lit n1 1. Proof. apply (il_of_Z _ _ _ IL). eapply ok_small; [apply (il_ok_2 _ _ _ IL)|lia]. Qed.

  (* a product of literals, the left one an integer *)
  Lemma fold_mul u v z w : lit u z -> (z <> 0 -> lit v w) -> ok (z * w) -> lit (fold2 OMul u v) (z * w).
  Proof.
    intros Hu Hv Hok. cbn [fold2]. unfold tiny. rewrite (il_tiny _ _ _ IL u z Hu), (il_eqb _ _ _ IL u n1 z 1 Hu one_lit).
    destruct (Z.eqb_spec z 0) as [->|Z0]; [exact zero_lit|]. destruct (Z.eqb_spec z 1) as [->|Z1].
    - rewrite Z.mul_1_l. now apply Hv.
    - apply (il_mul _ _ _ IL); auto.
  Qed.
  Lemma fold_power e k : power lit e x k -> 1 <= k -> ok (a ^ k) -> lit (fold_lit (written x c e)) (a ^ k).
  Proof.
    intros H Hk Hok. remember x as y eqn:E. destruct H as [y|y d k Hd K0 K1]; cbn [written fold_lit fold2]; rewrite E, String.eqb_refl; cbn [fold_lit].
    - now rewrite Z.pow_1_r.
    - rewrite (il_eqb _ _ _ IL d n0 k 0 Hd zero_lit), (proj2 (Z.eqb_neq k 0)) by exact K0.
      rewrite (il_eqb _ _ _ IL c n0 a 0 Hc zero_lit). destruct (Z.eqb_spec a 0) as [->|A0].
      + rewrite Z.pow_0_l by lia. exact zero_lit.
      + apply PW; auto. lia.
  Qed.
  Lemma fold_polynomial e ts : polynomial lit e ts -> only_binary e -> powers_of x ts -> ok (size_at a ts) ->
    lit (fold_lit (written x c e)) (value_at a ts).
  Proof.
    induction 1 as [e t H|p q tp tq Hp IHp Hq IHq|p q tp tq Hp IHp Hq IHq|p tp Hp IHp|d z p tp Hd Hp IHp]; intros B P Hok.
    - unfold value_at, size_at in *. cbn [fold_right] in *. rewrite Z.add_0_r in *. unfold term_at in *.
      destruct H as [d z Hd|e y k He|d z e y k m Hd He Hm]; cbn [fst snd] in *.
      + now rewrite Z.mul_1_r.
      + destruct (P y k) as [-> Pk]; [now left|]. rewrite Z.mul_1_l in *. apply fold_power; auto. eapply ok_small; [exact Hok|lia].
      + destruct (P y k) as [-> Pk]; [now left|]. assert (Hz : ok (z * a ^ k)) by (eapply ok_small; [exact Hok|lia]).
        assert (K : z <> 0 -> ok (a ^ k)) by (intros Z0; eapply ok_small; [exact Hz|rewrite Z.abs_mul; nia]).
        destruct Hm as [|_ Z0]; cbn [written fold_lit].
        * apply fold_mul; auto. intros Z0. apply fold_power; auto.
        * rewrite Z.mul_comm in *. apply fold_mul; auto. apply fold_power; auto.
    - rewrite size_app in Hok. rewrite value_app. destruct B as [B1 B2]. cbn [written fold_lit fold2].
      pose proof (size_value tp). pose proof (size_value tq).
      assert (P1 : powers_of x tp) by (intros y k I; apply P; unfold keys; rewrite map_app; apply in_or_app; auto).
      assert (P2 : powers_of x tq) by (intros y k I; apply P; unfold keys; rewrite map_app; apply in_or_app; auto).
      apply (il_add _ _ _ IL); [apply IHp; auto; eapply ok_small; [exact Hok|lia]|apply IHq; auto; eapply ok_small; [exact Hok|lia]|eapply ok_small; [exact Hok|lia]].
    - rewrite size_app, size_scale in Hok. rewrite value_app, value_scale. replace (value_at a tp + -1 * value_at a tq) with (value_at a tp - value_at a tq) by lia.
      destruct B as [B1 B2]. cbn [written fold_lit fold2].
      pose proof (size_value tp). pose proof (size_value tq).
      assert (P1 : powers_of x tp) by (intros y k I; apply P; unfold keys; rewrite map_app; apply in_or_app; auto).
      assert (P2 : powers_of x tq) by (intros y k I; apply P; unfold keys, scale; rewrite map_app, map_map; apply in_or_app; auto).
      apply (il_sub _ _ _ IL); [apply IHp; auto; eapply ok_small; [exact Hok|lia]|apply IHq; auto; eapply ok_small; [exact Hok|lia]|eapply ok_small; [exact Hok|lia]].
    - destruct B.
    - destruct B as [_ B]. rewrite size_scale in Hok. rewrite value_scale. cbn [written fold_lit]. pose proof (size_value tp).
      apply fold_mul; auto.
      + intros Z0. apply IHp; auto.
        * intros y k I. apply P. unfold keys, scale. now rewrite map_map.
        * eapply ok_small; [exact Hok|]. rewrite Z.abs_mul. nia.
      + eapply ok_small; [exact Hok|]. rewrite !Z.abs_mul. nia.
  Qed.
  Lemma polynomial_arithmetic e ts : polynomial lit e ts -> only_binary e -> powers_of x ts -> arithmetic_in x e.
  Proof.
    assert (PWR : forall e y k, power lit e y k -> y = x -> arithmetic_in x e) by (intros ? ? ? [y|y d k _ _ _] E; cbn; auto).
    induction 1 as [e t H|p q tp tq Hp IHp Hq IHq|p q tp tq Hp IHp Hq IHq|p tp Hp IHp|d z p tp Hd Hp IHp]; intros B P; cbn [only_binary arithmetic_in] in *.
    - destruct H as [d z Hd|e y k He|d z e y k m Hd He Hm]; [exact I|apply (PWR _ _ _ He), (P y k); now left|].
      assert (K : arithmetic_in x e) by (apply (PWR _ _ _ He), (P y k); now left). destruct Hm; cbn; auto.
    - destruct B. split; [apply IHp|apply IHq]; auto; intros y k I; apply P; unfold keys; rewrite map_app; apply in_or_app; auto.
    - destruct B. split; [apply IHp|apply IHq]; auto; intros y k I; apply P; unfold keys, scale; rewrite map_app, ?map_map; apply in_or_app; auto.
    - contradiction.
    - split; [exact I|]. apply IHp; [apply B|]. intros y k I. apply P. unfold keys, scale. now rewrite map_map.
  Qed.
End Integers.

Theorem c74_polynomial : forall (num : Type) (N : NumOps num) lit ok, IntLits N lit ok -> exact_powers N lit ok ->
  forall (e : expr num) ts x c a, polynomial lit e ts -> only_binary e -> powers_of x ts -> lit c a -> ok (size_at a ts) ->
  exists v, substitutes_to e x (EReal c) (EReal v) /\ lit v (value_at a ts).
Proof.
  intros num N lit ok IL PW e ts x c a He B P Hc Hok. exists (fold_lit (written x c e)). split.
  - exists (height e). intros n Hn. apply subst_fold; [|exact Hn]. eapply polynomial_arithmetic; eauto.
  - eapply fold_polynomial; eauto.
Qed.
Print Assumptions c74_polynomial.

Lemma q_powers : exact_powers Q_ops q_int any.
Proof.
  intros c a d k Hc Hd Hk _. unfold q_int in *. destruct (q_is_int_true d k) as [I1 I2].
  { apply Qeq_eqR in Hd. rewrite Hd. apply Q2R_Z. }
  cbn [n_pow Q_ops]. rewrite I1, I2, Qred_correct, Hc. symmetry. apply Qpower.Zpower_Qpower. lia.
Qed.

(** Rationals compute with integers exactly. *)
Theorem c74_rationals : forall (e : expr Q) ts x c a, polynomial q_int e ts -> only_binary e -> powers_of x ts -> q_int c a ->
  exists v, substitutes_to e x (EReal c) (EReal v) /\ (v == inject_Z (value_at a ts))%Q.
Proof. intros e ts x c a He B P Hc. exact (c74_polynomial Q Q_ops q_int any q_ints q_powers e ts x c a He B P Hc I). Qed.
Print Assumptions c74_rationals.

(** So do doubles within 2^53, if pow does. *)
Theorem c74_doubles : forall pw lg pwx lgx, let N := double_ops pw lg pwx lgx in
  exact_powers N d_int d_ok ->
  forall (e : expr double) ts x c a, polynomial d_int e ts -> only_binary e -> powers_of x ts -> d_int c a ->
  size_at a ts <= 2 ^ 53 ->
  exists v, substitutes_to e x (EReal c) (EReal v) /\ d_int v (value_at a ts).
Proof.
  intros pw lg pwx lgx N PW e ts x c a He B P Hc Hs.
  apply (c74_polynomial double N d_int d_ok (double_ints pw lg pwx lgx) PW); auto.
  unfold d_ok. assert (0 <= size_at a ts); [|lia]. unfold size_at. clear. induction ts; cbn [fold_right]; lia.
Qed.
Print Assumptions c74_doubles.

(** (3*x^2 - (x*2 + 5)) / 4 at x = 7 is 32. *)
Definition c74_example : expr Q :=
  EDiv (ESub (EMul (qr 3) (EExp (qv "x") (qr 2))) (EAdd (EMul (qv "x") (qr 2)) (qr 5))) (qr 4).
Example c74_case : arithmetic_in "x" c74_example /\ substitutes_to c74_example "x" (qr 7) (qr 32).
Proof.
  assert (A : arithmetic_in "x" c74_example) by (cbn; tauto). split; [exact A|].
  exists 6%nat. intros n Hn. unfold qr at 2. unfold qr. rewrite subst_fold; [|exact A|cbn; lia]. vm_compute. reflexivity.
Qed.
Example c74_machine_case : ieee_units R_ops /\ @ordinary R R_ops (written "x" 7%R (EMul (EReal 3%R) (EAdd (EVar "x") (EReal 2%R)))).
Proof.
  split; [exact R_ieee|]. cbn. repeat split. destruct (Rle_dec (Rabs 3) (/ 8388608)) as [Hl|Hl]; [|reflexivity]. rewrite Rabs_pos_eq in Hl; lra.
Qed.
Definition c74_poly : expr Q := ESub (EMul (qr 3) (EExp (qv "x") (qr 2))) (EAdd (EMul (qv "x") (qr 2)) (qr 5)).
Definition c74_terms : list monomial := [(Some ("x", 2), 3)] ++ scale (-1) ([(Some ("x", 1), 2)] ++ [(None, 5)]).
Example c74_polynomial_case : polynomial q_int c74_poly c74_terms /\ only_binary c74_poly /\ powers_of "x" c74_terms /\ value_at 7 c74_terms = 128.
Proof.
  split; [|split; [|split]].
  - apply pn_sub; [|apply pn_add]; apply pn_term.
    + eapply tm_scaled; [reflexivity| |apply ml_pre]. constructor; [reflexivity|lia|lia].
    + eapply tm_scaled; [reflexivity| |apply ml_post; [reflexivity|lia]]. constructor.
    + constructor. reflexivity.
  - cbn. tauto.
  - intros y k H. cbn in H. repeat (destruct H as [H|H]; [first [discriminate H | injection H as <- <-; split; [reflexivity|lia]]|]). destruct H.
  - reflexivity.
Qed.
(** pow can be such that it computes exactly. *)
Example c74_doubles_case : forall lg pwx lgx, exists pw, exact_powers (double_ops pw lg pwx lgx) d_int d_ok.
Proof.
  intros lg pwx lgx.
  exists (fun c d => d_of (Ztrunc (B2R c) ^ Ztrunc (B2R d)) 0).
  intros c a d k [_ Hc] [_ Hd] Hk Hok. cbn [n_pow double_ops]. rewrite Hc, Hd, !Ztrunc_IZR. now apply d_of_int.
Qed.
