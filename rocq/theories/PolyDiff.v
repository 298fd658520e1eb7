(** Differentiating sums of integer terms (SpecPoly.v): what Differentiate
    gives for each term, and for the sums that Simplify makes. *)
From Coq Require Import String Bool Arith ZArith List Lia Permutation.
From Verif Require Import Base Num Expr Ghost Simplify Calculus Spec SpecPoly TreeProofs MonadProofs FuelProofs PolyProofs PolySem.
Import ListNotations.
Open Scope string_scope.
Open Scope Z_scope.
Open Scope list_scope.

(** Differentiating [e] by [x] gives [d], and no step is flagged. *)
Definition derives {num : Type} {N : NumOps num} (e : expr num) (x : string) (d : expr num) : Prop :=
  exists n, diff n false e (EVar x) = ([], Ok d).
Lemma derives_ge {num} {N : NumOps num} (e d : expr num) x n m :
  diff n false e (EVar x) = ([], Ok d) -> (n <= m)%nat -> diff m false e (EVar x) = ([], Ok d).
Proof. intros H L. destruct (diff_mono n m false e (EVar x) L) as [E|E]; [rewrite H in E; discriminate|congruence]. Qed.

(** ** Derivatives of lists of terms *)
Lemma deriv_app x a b : deriv x (a ++ b) = deriv x a ++ deriv x b.
Proof. apply map_app. Qed.
Lemma total_deriv_some x j ts : j <> 0 -> total (Some (x, j)) (deriv x ts) = (j + 1) * total (Some (x, j + 1)) ts.
Proof.
  intros J. induction ts as [|[k z] ts IH]; [simpl; lia|].
  cbn [deriv map total fold_right]. fold (deriv x ts). fold (total (Some (x, j)) (deriv x ts)). fold (total (Some (x, j + 1)) ts).
  rewrite IH. unfold deriv1. cbn [fst snd]. destruct k as [[y k]|]; [|cbn; lia].
  destruct (String.eqb_spec y x) as [->|H].
  - destruct (Z.eqb_spec k 1) as [->|K]; cbn [fst snd key_eqb]; rewrite ?String.eqb_refl; cbn [andb].
    + destruct (Z.eqb_spec (j + 1) 1); lia.
    + destruct (Z.eqb_spec j (k - 1)), (Z.eqb_spec (j + 1) k); try lia; nia.
  - cbn [fst snd key_eqb]. destruct (String.eqb_spec x y); [congruence|]. cbn [andb]. lia.
Qed.
Lemma total_deriv_none x ts : total None (deriv x ts) = total (Some (x, 1)) ts.
Proof.
  induction ts as [|[k z] ts IH]; [reflexivity|].
  cbn [deriv map total fold_right]. fold (deriv x ts). fold (total None (deriv x ts)). fold (total (Some (x, 1)) ts).
  rewrite IH. unfold deriv1. cbn [fst snd]. destruct k as [[y k]|]; [|cbn; lia].
  destruct (String.eqb_spec y x) as [->|H].
  - destruct (Z.eqb_spec k 1) as [->|K]; cbn [fst snd key_eqb]; rewrite ?String.eqb_refl; cbn [andb].
    + rewrite Z.eqb_refl. lia.
    + destruct (Z.eqb_spec 1 k); lia.
  - cbn [fst snd key_eqb]. destruct (String.eqb_spec x y); [congruence|]. cbn [andb]. lia.
Qed.
Lemma total_deriv_other x y j ts : y <> x \/ j = 0 -> total (Some (y, j)) (deriv x ts) = 0.
Proof.
  intros H. apply total_notin. unfold keys, deriv. rewrite map_map. intros K. apply in_map_iff in K. destruct K as ([k z] & K & _).
  unfold deriv1 in K. cbn [fst] in K. destruct k as [[v k]|]; [|discriminate].
  destruct (String.eqb v x); [|discriminate]. destruct (Z.eqb_spec k 1); [discriminate|]. cbn [fst] in K. injection K as <- <-.
  destruct H as [H|H]; [congruence|lia].
Qed.
Lemma total_deriv x a b : (forall k, total k a = total k b) -> forall k, total k (deriv x a) = total k (deriv x b).
Proof.
  intros H k. destruct k as [[y j]|]; [|now rewrite !total_deriv_none].
  destruct (string_dec y x) as [->|Hy]; [|rewrite !total_deriv_other; auto].
  destruct (Z.eq_dec j 0) as [->|Hj]; [rewrite !total_deriv_other; auto|]. now rewrite !total_deriv_some, H.
Qed.
Lemma deriv_keys x p ts : In (Some p) (keys (deriv x ts)) ->
  exists j, p = (x, j) /\ j <> 0 /\ In (Some (x, j + 1)) (keys ts).
Proof.
  unfold keys, deriv. rewrite map_map. intros K. apply in_map_iff in K. destruct K as ([k z] & K & I).
  unfold deriv1 in K. cbn [fst] in K. destruct k as [[v k]|]; [|discriminate].
  destruct (String.eqb_spec v x) as [->|]; [|discriminate]. destruct (Z.eqb_spec k 1); [discriminate|]. cbn [fst] in K. injection K as <-.
  exists (k - 1). split; [reflexivity|]. split; [lia|]. apply in_map_iff. exists (Some (x, k), z). split; [|exact I].
  cbn [fst]. do 2 f_equal. lia.
Qed.

(* merging like terms first does not make the derivative heavier *)
Definition rate (x : string) (k : key) : Z :=
  match k with Some (y, j) => if String.eqb y x then (if j =? 1 then 1 else Z.abs j) else 0 | None => 0 end.
Fixpoint wsum (x : string) (ts : list monomial) : Z :=
  match ts with [] => 0 | t :: ts => rate x (fst t) * Z.abs (snd t) + wsum x ts end.
Lemma rate_nonneg x k : 0 <= rate x k.
Proof. unfold rate. destruct k as [[y j]|]; [|lia]. destruct (String.eqb y x), (j =? 1); lia. Qed.
Lemma wsum_nonneg x ts : 0 <= wsum x ts.
Proof. induction ts as [|t ts IH]; cbn [wsum]; [lia|]. pose proof (rate_nonneg x (fst t)). nia. Qed.
Lemma weight_deriv x ts : weight (deriv x ts) = wsum x ts.
Proof.
  induction ts as [|[k z] ts IH]; [reflexivity|]. cbn [deriv map weight fold_right wsum]. fold (deriv x ts). fold (weight (deriv x ts)).
  rewrite IH. f_equal. unfold deriv1, rate. cbn [fst snd]. destruct k as [[y j]|]; [|cbn; lia].
  destruct (String.eqb y x); [|cbn; lia]. destruct (j =? 1); cbn [snd]; rewrite ?Z.abs_mul; lia.
Qed.
Lemma wsum_others x k ts : rate x k * Z.abs (total k ts) + wsum x (others k ts) <= wsum x ts.
Proof.
  induction ts as [|t ts IH]; [simpl; lia|]. cbn [total fold_right others filter wsum]. fold (total k ts) (others k ts).
  pose proof (rate_nonneg x k). destruct (key_eqb k (fst t)) eqn:E; cbn [negb wsum].
  - apply key_eqb_eq in E. rewrite <- E. nia.
  - rewrite Z.add_0_l. lia.
Qed.
Lemma wsum_combined x : forall tl ts, NoDup (keys tl) -> (forall k, total k tl = total k ts) -> wsum x tl <= wsum x ts.
Proof.
  induction tl as [|[k z] tl IH]; intros ts D H; [apply wsum_nonneg|]. cbn [wsum fst snd].
  cbn [keys map fst] in D. apply NoDup_cons_iff in D. destruct D as [Dk D].
  assert (Hz : total k ts = z).
  { rewrite <- H. cbn [total fold_right fst snd]. rewrite key_eqb_refl. fold (total k tl). rewrite total_notin; [lia|exact Dk]. }
  pose proof (wsum_others x k ts) as K. rewrite Hz in K. specialize (IH (others k ts) D).
  assert (wsum x tl <= wsum x (others k ts)); [|lia]. apply IH. intros j. rewrite total_others. specialize (H j).
  cbn [total fold_right fst snd] in H. fold (total j tl) in H. destruct (key_eqb j k) eqn:E; [|lia].
  apply key_eqb_eq in E. subst j. now apply total_notin.
Qed.

Section Diff.
  Context {num : Type} {N : NumOps num}.
  Variables (lit : num -> Z -> Prop) (ok : Z -> Prop).
  Hypothesis IL : IntLits N lit ok.
  (* pow squares integers *)
  Hypothesis SQ : forall a z, lit a z -> ok (z * z) -> lit (n_pow a (n_of_Z 2)) (z * z) /\ n_pow_exact a (n_of_Z 2) = true.
  Notation E := (expr num).
  Notation power := (power lit).
  Notation term := (term lit).
  Notation plain := (plain lit).
  Notation neat := (neat lit).
  Notation res := (res lit).
  Notation settled := (settled lit).
  Local Notation okle := (PolyProofs.okle lit ok IL).
  Local Notation lit0 := (PolyProofs.lit0 lit ok IL).
  Local Notation lit1 := (PolyProofs.lit1 lit ok IL).
  Local Notation eqb_lit := (il_eqb _ _ _ IL).

  Lemma yields_mul2 prefer a b a' b' r : yields prefer a a' -> yields prefer b b' -> yields prefer a' a' -> yields prefer b' b' ->
    yields prefer (EMul a' b') r -> yields prefer (EMul a b) r.
  Proof.
    intros (n1 & H1) (n2 & H2) (n3 & H3) (n4 & H4) (n5 & H5).
    pose (m := (n1 + n2 + n3 + n4 + n5)%nat). exists (S m).
    assert (K : simp (S m) prefer (EMul a' b') = ([], Ok r)) by (eapply yields_ge; [exact H5|unfold m; lia]).
    change (simp (S m) prefer (EMul a' b')) with (visit_mul (simp m prefer) prefer a' b') in K.
    change (simp (S m) prefer (EMul a b)) with (visit_mul (simp m prefer) prefer a b).
    unfold visit_mul in *. rewrite (operands_run _ _ _ _ a' b') in K; [|eapply yields_ge; [exact H3|unfold m; lia]|eapply yields_ge; [exact H4|unfold m; lia]].
    rewrite (operands_run _ _ _ _ a' b'); [exact K|eapply yields_ge; [exact H1|unfold m; lia]|eapply yields_ge; [exact H2|unfold m; lia]].
  Qed.
  Lemma yields_real prefer c : yields prefer (EReal c) (EReal c).
  Proof. exists 1%nat. reflexivity. Qed.
  Lemma yields_power prefer p x k : power p x k -> yields prefer p p.
  Proof. intros H. exists 2%nat. eapply (simp_power lit ok IL prefer 0); eauto. Qed.
  Lemma yields_multiple prefer post c z p x k m : lit c z -> power p x k -> multiple post c z p m -> yields prefer m (scaled m z p).
  Proof. intros Hc Hp Hm. exists 3%nat. eapply (simp_scaled lit ok IL post prefer 0); eauto. Qed.

  (* x^c for any exponent other than 0 *)
  Definition powered (y : string) (c : num) (k : Z) : E := if k =? 1 then EVar y else EExp (EVar y) (EReal c).
  Lemma powered_power y c k : lit c k -> k <> 0 -> power (powered y c k) y k.
  Proof. intros Hc K0. unfold powered. destruct (Z.eqb_spec k 1) as [->|K1]; now constructor. Qed.
  Lemma yields_powered prefer y c k : lit c k -> k <> 0 -> yields prefer (EExp (EVar y) (EReal c)) (powered y c k).
  Proof.
    intros Hc K0. exists 2%nat. cbn -[n0 n1]. rewrite (eqb_lit _ _ _ _ Hc lit0), (eqb_lit _ _ _ _ Hc lit1).
    apply Z.eqb_neq in K0. rewrite K0. unfold powered. destruct (k =? 1); reflexivity.
  Qed.

  (* (x^c * d) * b for the numbers 1 and 0 *)
  Lemma yields_factor prefer y c k d w (b : bool) : lit c k -> k <> 0 -> lit d w -> w <> 0 -> w <> 1 ->
    yields prefer (EMul (EMul (EExp (EVar y) (EReal c)) (EReal d)) (if b then real 1 else real 0))
      (if b then EMul (powered y c k) (EReal d) else real 0).
  Proof.
    intros Hc K0 Hd W0 W1. pose proof (powered_power y c k Hc K0) as Hp.
    pose proof (yields_multiple prefer true d w _ y k _ Hd Hp (ml_post _ _ _ _ eq_refl W0)) as Y.
    unfold scaled in Y. apply Z.eqb_neq in W0, W1. rewrite W0, W1 in Y.
    apply (yields_mul2 prefer _ _ (EMul (powered y c k) (EReal d)) (if b then real 1 else real 0)).
    - eapply (yields_mul2 prefer _ _ (powered y c k) (EReal d)); auto using yields_real.
      + now apply yields_powered.
      + eapply yields_power; eauto.
    - destruct b; apply yields_real.
    - exact Y.
    - destruct b; apply yields_real.
    - destruct Y as (n & Y). exists (S (S (S n))).
      change (simp (S (S (S n))) prefer (EMul (EMul (powered y c k) (EReal d)) (if b then real 1 else real 0))) with
        (visit_mul (simp (S (S n)) prefer) prefer (EMul (powered y c k) (EReal d)) (if b then real 1 else real 0)).
      unfold visit_mul. rewrite (operands_run _ _ _ _ (EMul (powered y c k) (EReal d)) (if b then real 1 else real 0));
        [|eapply yields_ge; [exact Y|lia]|destruct b; reflexivity].
      unfold mul_rules. cbn [first_rule].
      assert (K : mul_478 (simp (S (S n)) prefer) (EMul (powered y c k) (EReal d)) (if b then real 1 else real 0) =
                  ([], Ok (Some (if b then EMul (powered y c k) (EReal d) else real 0)))).
      { assert (R : rcast (PBin OMul PReal PAny) (EMul (EMul (powered y c k) (EReal d)) (if b then real 1 else real 0)) =
                    Some (EMul (if b then real 1 else real 0) (EMul (powered y c k) (EReal d))))
          by (destruct b, Hp; reflexivity).
        unfold mul_478. rewrite R. destruct b; cbn [as_real as_bin]; unfold real; change (n_of_Z 1) with n1; change (n_of_Z 0) with n0.
        - rewrite (PolyProofs.tiny_lit lit ok IL _ _ lit1), (eqb_lit _ _ _ _ lit1 lit0), (eqb_lit _ _ _ _ lit1 lit1). cbn [Z.eqb orb].
          unfold yesM. rewrite (yields_ge prefer _ _ n (S (S n)) Y) by lia. reflexivity.
        - rewrite (PolyProofs.tiny_lit lit ok IL _ _ lit0), (eqb_lit _ _ _ _ lit0 lit0). reflexivity. }
      rewrite K. reflexivity.
  Qed.

  Notation mul_run prefer m c a := (first_rule (mul_rules (simp m prefer) prefer) (mul_rest (simp m prefer)) (EReal c) a).
  Ltac nxtm H := rewrite first_no; [|first [reflexivity | cbn -[n0 n1 n2 Z.eqb]; rewrite ?H; reflexivity]].

  (* c * (x^k * d) *)
  Lemma mul_after prefer n c z d w p x k : lit c z -> lit d w -> power p x k -> z <> 0 -> z <> 1 ->
    mul_run prefer n c (EMul p (EReal d)) =
    ([], Ok (if z =? w then EMul p (EExp (EReal d) (real 2)) else EMul (EReal (n_mul c d)) p)).
  Proof.
    intros Hc Hd Hp Z0 Z1. unfold mul_rules.
    rewrite first_no; [|rewrite (mul_478_run lit ok IL prefer n c z _ Hc); apply Z.eqb_neq in Z0, Z1; now rewrite Z0, Z1].
    assert (Heq : n_eqb d c = (w =? z)) by (apply (il_eqb _ _ _ IL); auto).
    rewrite (Z.eqb_sym z w).
    destruct Hp as [x|x e k He K0 K1].
    - do 12 nxtm Heq. destruct (w =? z).
      + apply first_yes. unfold mul_591. cbn. rewrite Heq. reflexivity.
      + do 10 nxtm Heq. cbn [first_rule].
        unfold mul_rest. cbn -[simp]. unfold strip_exp. cbn. change (n_of_Z 1) with n1.
        rewrite (eqb_lit _ _ _ _ lit1 lit1). reflexivity.
    - do 12 nxtm Heq. destruct (w =? z).
      + apply first_yes. unfold mul_591. cbn. rewrite Heq. reflexivity.
      + do 10 nxtm Heq. cbn [first_rule].
        unfold mul_rest. cbn -[simp]. unfold strip_exp. cbn. rewrite (eqb_lit _ _ _ _ He lit1).
        apply Z.eqb_neq in K1. rewrite K1. reflexivity.
  Qed.

  Lemma lit2 : lit (n_of_Z 2) 2.
  Proof. apply (il_of_Z _ _ _ IL), (il_ok_2 _ _ _ IL). Qed.
  Lemma yields_square prefer d w : lit d w -> w <> 0 -> ok (w * w) ->
    yields prefer (EExp (EReal d) (real 2)) (EReal (n_pow d (n_of_Z 2))).
  Proof.
    intros Hd W0 Hw. exists 2%nat. destruct (SQ d w Hd Hw) as [_ Hx]. cbn -[n0 n1 n2].
    rewrite (eqb_lit _ _ _ _ lit2 lit0), (eqb_lit _ _ _ _ Hd lit0). apply Z.eqb_neq in W0. rewrite W0. cbn. rewrite Hx. reflexivity.
  Qed.
  Lemma yields_after prefer c z d w p x k : lit c z -> lit d w -> power p x k -> z <> 0 -> z <> 1 -> w <> 0 -> w <> 1 ->
    yields prefer (EMul (EReal c) (EMul p (EReal d))) (if z =? w then EMul p (EExp (EReal d) (real 2)) else EMul (EReal (n_mul c d)) p).
  Proof.
    intros Hc Hd Hp Z0 Z1 W0 W1.
    pose proof (yields_multiple prefer true d w _ x k _ Hd Hp (ml_post _ _ _ _ eq_refl W0)) as (n & Y).
    unfold scaled in Y. assert (V0 := W0). assert (V1 := W1). apply Z.eqb_neq in V0, V1. rewrite V0, V1 in Y.
    exists (S (S n)). change (simp (S (S n)) prefer (EMul (EReal c) (EMul p (EReal d)))) with
      (visit_mul (simp (S n) prefer) prefer (EReal c) (EMul p (EReal d))).
    unfold visit_mul. rewrite (operands_run _ _ _ _ (EReal c) (EMul p (EReal d))); [|reflexivity|eapply yields_ge; [exact Y|lia]].
    eapply mul_after; eauto.
  Qed.
  (* what simplifying that again gives *)
  Lemma after_again prefer c z d w p x k : lit c z -> lit d w -> power p x k -> w <> 0 -> ok (z * w) ->
    exists r, yields prefer (if z =? w then EMul p (EExp (EReal d) (real 2)) else EMul (EReal (n_mul c d)) p) r /\
      exists u, term true r u /\ refines [u] [(Some (x, k), z * w)].
  Proof.
    intros Hc Hd Hp W0 Hw.
    assert (K : forall m e c', lit e (z * w) -> multiple true e (z * w) p m -> yields prefer c' (scaled m (z * w) p) ->
      exists r, yields prefer c' r /\ exists u, term true r u /\ refines [u] [(Some (x, k), z * w)]).
    { intros m e c' He Hm Y. exists (scaled m (z * w) p). split; [exact Y|]. unfold scaled.
      destruct (Z.eqb_spec (z * w) 0) as [E0|E0]; [|destruct (Z.eqb_spec (z * w) 1) as [E1|E1]].
      - exists (None, 0). split; [constructor; apply lit0|]. rewrite E0.
        apply (refines_scale_zero [(Some (x, k), 1)]). cbn. lia.
      - exists (Some (x, k), 1). rewrite E1. split; [now constructor|apply refines_refl].
      - eexists. split; [eapply tm_scaled; eauto|apply refines_refl]. }
    destruct (Z.eqb_spec z w) as [->|Zw].
    - destruct (SQ d w Hd Hw) as [Hl _]. eapply (K (EMul p (EReal (n_pow d (n_of_Z 2)))) _ _ Hl).
      + apply ml_post; [reflexivity|]. nia.
      + eapply (yields_mul2 prefer _ _ p (EReal (n_pow d (n_of_Z 2)))).
        * eapply yields_power; eauto.
        * now apply (yields_square prefer d w).
        * eapply yields_power; eauto.
        * apply yields_real.
        * eapply yields_multiple; eauto. apply ml_post; [reflexivity|]. nia.
    - assert (Hl : lit (n_mul c d) (z * w)) by (apply (il_mul _ _ _ IL); auto).
      eapply (K (EMul (EReal (n_mul c d)) p) _ _ Hl); [apply ml_pre|]. eapply (yields_multiple prefer true); eauto. apply ml_pre.
  Qed.

  Lemma yields_zero_add prefer a b b' : yields prefer a (real 0) -> yields prefer b b' -> is_type TReal b' = false -> yields prefer (EAdd a b) b'.
  Proof.
    intros (n & Ha) (m & Hb) Hc. exists (S (max n m)). change (simp (S (max n m)) prefer (EAdd a b)) with
      (visit_add (simp (max n m) prefer) a b). unfold visit_add.
    rewrite (operands_run _ _ _ _ (real 0) b'); [|eapply yields_ge; [exact Ha|lia]|eapply yields_ge; [exact Hb|lia]].
    unfold add_rules. rewrite first_no; [|destruct b'; try discriminate Hc; reflexivity].
    apply first_yes. unfold add_101. replace (rcast (PBin OAdd PReal PAny) (EAdd (real 0) b')) with (Some (EAdd (real 0) b')) by (destruct b'; reflexivity).
    unfold real. change (n_of_Z 0) with n0. rewrite (eqb_lit _ _ _ _ lit0 lit0). reflexivity.
  Qed.
  Lemma yields_lit_add prefer a b c d : yields prefer a (EReal c) -> yields prefer b (EReal d) -> yields prefer (EAdd a b) (EReal (n_add c d)).
  Proof.
    intros (n & Ha) (m & Hb). exists (S (max n m)). change (simp (S (max n m)) prefer (EAdd a b)) with
      (visit_add (simp (max n m) prefer) a b). unfold visit_add.
    rewrite (operands_run _ _ _ _ (EReal c) (EReal d)); [reflexivity|eapply yields_ge; [exact Ha|lia]|eapply yields_ge; [exact Hb|lia]].
  Qed.
  Lemma yields_lit_mul prefer c z d : lit c z -> z <> 0 -> z <> 1 -> yields prefer (EMul (EReal c) (EReal d)) (EReal (n_mul c d)).
  Proof.
    intros Hc Z0 Z1. exists 2%nat. change (simp 2 prefer (EMul (EReal c) (EReal d))) with
      (visit_mul (simp 1 prefer) prefer (EReal c) (EReal d)). unfold visit_mul.
    rewrite (operands_run _ _ _ _ (EReal c) (EReal d)); [|reflexivity..]. unfold mul_rules.
    rewrite first_no; [|rewrite (mul_478_run lit ok IL prefer 1 c z _ Hc); apply Z.eqb_neq in Z0, Z1; now rewrite Z0, Z1].
    now apply first_yes.
  Qed.

  (** ** Differentiation of each kind of node *)
  Lemma try_ok {A} (a : A) : m_try ([], Ok a) = ([], Ok (inl a)).
  Proof. reflexivity. Qed.
  Lemma derives_real x c : derives (EReal c) x (real 0).
  Proof. exists 1%nat. reflexivity. Qed.
  Lemma derives_var x y : derives (EVar y) x (if String.eqb x y then real 1 else real 0).
  Proof. exists 1%nat. cbn. destruct (String.eqb x y); reflexivity. Qed.
  Lemma derives_mul x a b da db r : derives a x da -> derives b x db -> yields false (EAdd (EMul da b) (EMul a db)) r ->
    derives (EMul a b) x r.
  Proof.
    intros (n & Ha) (m & Hb) (k & Hr). exists (S (n + m + k)). cbn [diff diff_step is_var]. unfold diff_mul.
    rewrite (derives_ge _ _ _ n (n + m + k) Ha), try_ok, bind_ok by lia.
    rewrite (derives_ge _ _ _ m (n + m + k) Hb), try_ok, bind_ok by lia.
    eapply yields_ge; [exact Hr|lia].
  Qed.
  Lemma derives_add x a b da db r : derives a x da -> derives b x db -> yields false (EAdd da db) r -> derives (EAdd a b) x r.
  Proof.
    intros (n & Ha) (m & Hb) (k & Hr). exists (S (n + m + k)). cbn [diff diff_step is_var]. unfold diff_addsub.
    rewrite (derives_ge _ _ _ n (n + m + k) Ha), try_ok, bind_ok by lia.
    rewrite (derives_ge _ _ _ m (n + m + k) Hb), try_ok, bind_ok by lia.
    eapply yields_ge; [exact Hr|lia].
  Qed.
  Lemma derives_pow x y c k : lit c k -> k <> 0 -> k <> 1 -> ok (k - 1) ->
    derives (EExp (EVar y) (EReal c)) x (if String.eqb x y then EMul (powered y (n_sub c n1) (k - 1)) (EReal c) else real 0).
  Proof.
    intros Hc K0 K1 Hk. assert (Hs : lit (n_sub c n1) (k - 1)) by (apply (il_sub _ _ _ IL); auto using lit1).
    destruct (yields_factor false y (n_sub c n1) (k - 1) c k (String.eqb x y) Hs ltac:(lia) Hc K0 K1) as (n & Y).
    exists (S (S n)).
    change (diff (S (S n)) false (EExp (EVar y) (EReal c)) (EVar x)) with
      (diff_exp (simp (S n) false) (diff (S n) false) (EVar y) (EReal c) (EVar x)).
    unfold diff_exp. cbn [first_rule]. unfold diff_exp_poly at 1. cbn -[simp n1 String.eqb].
    rewrite (eqb_lit _ _ _ _ Hc lit1). apply Z.eqb_neq in K1. rewrite K1.
    destruct (String.eqb x y); cbn -[simp n1]; (rewrite (yields_ge false _ _ n (S n) Y) by lia); reflexivity.
  Qed.

  (** ** Terms *)
  Lemma term_diff x e t : neat e t -> (forall y k, fst t = Some (y, k) -> ok (k - 1)) -> ok (snd (deriv1 x t)) ->
    exists d, derives e x d /\ forall prefer, exists r, yields prefer d r /\
      (exists u, term true r u /\ refines [u] [deriv1 x t]) /\
      (fst (deriv1 x t) = None -> exists c, r = EReal c /\ lit c (snd (deriv1 x t))).
  Proof.
    intros He Hk Hw.
    assert (Kc : forall c z d, lit c z -> derives e x d -> (forall prefer, yields prefer d (EReal c)) -> deriv1 x t = (None, z) ->
      exists d, derives e x d /\ forall prefer, exists r, yields prefer d r /\
      (exists u, term true r u /\ refines [u] [deriv1 x t]) /\
      (fst (deriv1 x t) = None -> exists c, r = EReal c /\ lit c (snd (deriv1 x t)))).
    { intros c z d Hc Hd Y E. exists d. split; [exact Hd|]. intros prefer. exists (EReal c). split; [apply Y|]. rewrite E. split.
      - exists (None, z). split; [now constructor|apply refines_refl].
      - intros _. exists c. now split. }
    destruct He as [c z Hc Z0|p y k Hp|c z p y k Hc Z0 Z1 Hp].
    - apply (Kc _ 0 (real 0) lit0); auto using derives_real; intros; apply yields_real.
    - destruct Hp as [y|y c k Hc K0 K1].
      + pose proof (derives_var x y) as D. cbn [deriv1 fst snd] in *. rewrite (String.eqb_sym y x) in *.
        destruct (String.eqb x y); [apply (Kc _ 1 _ lit1 D)|apply (Kc _ 0 _ lit0 D)]; auto; intros; apply yields_real.
      + pose proof (derives_pow x y c k Hc K0 K1 (Hk _ _ eq_refl)) as D. cbn [deriv1 fst snd] in *. rewrite (String.eqb_sym y x) in *.
        destruct (String.eqb_spec x y) as [<-|Hxy]; [|apply (Kc _ 0 _ lit0 D); auto; intros; apply yields_real].
        assert (Hs : lit (n_sub c n1) (k - 1)) by (apply (il_sub _ _ _ IL); auto using lit1; now apply (Hk x)).
        assert (Hp : power (powered x (n_sub c n1) (k - 1)) x (k - 1)) by (apply powered_power; [exact Hs|lia]).
        apply Z.eqb_neq in K1. rewrite K1 in *. assert (K1' := K1). apply Z.eqb_neq in K1'.
        exists (EMul (powered x (n_sub c n1) (k - 1)) (EReal c)). split; [exact D|]. intros prefer.
        eexists. split; [eapply (yields_multiple prefer true); [exact Hc|exact Hp|now apply ml_post]|].
        unfold scaled. apply Z.eqb_neq in K0. rewrite K0, K1. apply Z.eqb_neq in K0. split; [|discriminate].
        exists (Some (x, k - 1), k). split; [eapply tm_scaled; [exact Hc|exact Hp|now apply ml_post]|]. rewrite Z.mul_1_r. apply refines_refl.
    - assert (Y0 : forall prefer, yields prefer (EMul (real 0) p) (real 0))
        by (intros prefer; exact (yields_multiple prefer false n0 0 p y k _ lit0 Hp (ml_pre _ _ _ _))).
      (* the power is differentiated to a number *)
      assert (Kn : forall b w, derives p x (EReal b) -> lit b w -> ok (z * w) -> deriv1 x (Some (y, k), z) = (None, z * w) ->
        exists d, derives (EMul (EReal c) p) x d /\ forall prefer, exists r, yields prefer d r /\
        (exists u, term true r u /\ refines [u] [deriv1 x (Some (y, k), z)]) /\
        (fst (deriv1 x (Some (y, k), z)) = None -> exists c, r = EReal c /\ lit c (snd (deriv1 x (Some (y, k), z))))).
      { intros b w Db Hb Hw' E. assert (Hl : lit (n_add n0 (n_mul c b)) (0 + z * w)).
        { apply (il_add _ _ _ IL); auto using lit0. apply (il_mul _ _ _ IL); auto. }
        cbn [Z.add] in Hl. apply (Kc _ (z * w) (EReal (n_add n0 (n_mul c b))) Hl); auto using yields_real.
        eapply derives_mul; [apply derives_real|exact Db|]. apply yields_lit_add; [apply Y0|]. eapply yields_lit_mul; eauto. }
      clear Kc. destruct Hp as [y|y b k Hb K0 K1].
      + pose proof (derives_var x y) as D. cbn [deriv1 fst snd] in *. rewrite (String.eqb_sym y x) in *.
        destruct (String.eqb x y); [apply (Kn _ 1 D lit1)|apply (Kn _ 0 D lit0)]; rewrite ?Z.mul_1_r, ?Z.mul_0_r; auto.
      + pose proof (derives_pow x y b k Hb K0 K1 (Hk _ _ eq_refl)) as D. cbn [deriv1 fst snd] in *. rewrite (String.eqb_sym y x) in *.
        destruct (String.eqb_spec x y) as [<-|Hxy]; [|apply (Kn _ 0 D lit0); rewrite ?Z.mul_0_r; auto].
        assert (Hs : lit (n_sub b n1) (k - 1)) by (apply (il_sub _ _ _ IL); auto using lit1; now apply (Hk x)).
        assert (Hp : power (powered x (n_sub b n1) (k - 1)) x (k - 1)) by (apply powered_power; [exact Hs|lia]).
        assert (K1' := K1). apply Z.eqb_neq in K1'. rewrite K1' in *.
        exists (if z =? k then EMul (powered x (n_sub b n1) (k - 1)) (EExp (EReal b) (real 2)) else EMul (EReal (n_mul c b)) (powered x (n_sub b n1) (k - 1))).
        split.
        * eapply derives_mul; [apply derives_real|exact D|]. apply yields_zero_add; [apply Y0|eapply yields_after; eauto|].
          destruct (z =? k); reflexivity.
        * intros prefer. destruct (after_again prefer c z b k _ x (k - 1) Hc Hb Hp K0) as (r & Yr & u & Hu & Ru); [now rewrite Z.mul_comm|].
          exists r. split; [exact Yr|]. split; [|discriminate]. exists u. rewrite (Z.mul_comm k z). now split.
  Qed.

  (** ** The sums that Simplify makes *)
  Lemma Forall2_in_r {A B} (P : A -> B -> Prop) l m b : Forall2 P l m -> In b m -> exists a, In a l /\ P a b.
  Proof.
    intros H. induction H as [|a b' l m Hab H IH]; intros Hi; [destruct Hi|]. destruct Hi as [->|Hi]; [exists a; split; [now left|exact Hab]|].
    destruct (IH Hi) as (a' & Ha & Hp). exists a'. split; [now right|exact Hp].
  Qed.
  Definition numeric (ts : list monomial) : Prop := forall p, ~ In (Some p) (keys ts).
  Lemma numeric_dec ts : numeric ts \/ exists p, In (Some p) (keys ts).
  Proof.
    induction ts as [|[k z] ts IH]; [left; intros p []|]. destruct k as [p|]; [right; exists p; now left|].
    destruct IH as [IH|(p & IH)]; [left|right; exists p; now right]. intros p [H|H]; [discriminate|now apply (IH p)].
  Qed.
  Lemma plain_const post c tr : plain post (EReal c) tr -> exists z, tr = [(None, z)] /\ lit c z.
  Proof.
    intros H. inversion H as [e t Ht|]; subst. inversion Ht as [d z Hd|p x k Hp|d z p x k m Hd Hp Hm]; subst.
    - now exists z.
    - inversion Hp.
    - inversion Hm.
  Qed.

  Lemma tree_diff x d l e : tree_over OAdd d l e -> forall tl, Forall2 neat l tl -> NoDup (keys tl) ->
    (forall y k, In (Some (y, k)) (keys tl) -> ok (k - 1)) -> ok (weight (deriv x tl)) ->
    exists e', derives e x e' /\ forall prefer, exists r, yields prefer e' r /\ res true r (deriv x tl) /\
      (numeric (deriv x tl) -> exists c, r = EReal c).
  Proof.
    intros H. induction H as [d e|d l1 l2 a b H1 IH1 H2 IH2]; intros tl Hl Hd Hk Hw.
    - inversion Hl as [|? u ? l' Hu Hn]; subst. inversion Hn; subst.
      destruct (term_diff x e u Hu) as (e' & D & K).
      { intros y k E. apply (Hk y). rewrite <- E. now left. }
      { eapply okle; [exact Hw|]. cbn -[Z.abs]. lia. }
      exists e'. split; [exact D|]. intros prefer. destruct (K prefer) as (r & Y & (u' & T & R) & C). exists r. split; [exact Y|]. split.
      + exists [u']. split; [now apply settled_term|exact R].
      + intros Hn'. destruct (fst (deriv1 x u)) as [p|] eqn:E; [|destruct (C eq_refl) as (c & -> & _); now exists c].
        exfalso. apply (Hn' p). left. cbn. exact E.
    - apply Forall2_app_inv_l in Hl. destruct Hl as (t1 & t2 & F1 & F2 & ->).
      assert (Hd' := Hd). rewrite keys_app in Hd', Hk. apply nodup_app in Hd'. destruct Hd' as (D1 & D2 & D12).
      rewrite deriv_app, weight_app in *. pose proof (weight_nonneg (deriv x t1)). pose proof (weight_nonneg (deriv x t2)).
      destruct (IH1 t1 F1 D1) as (a' & Da & Ka); [intros y k Hi; apply (Hk y), in_or_app; now left|eapply okle; [exact Hw|lia]|].
      destruct (IH2 t2 F2 D2) as (b' & Db & Kb); [intros y k Hi; apply (Hk y), in_or_app; now right|eapply okle; [exact Hw|lia]|].
      destruct (Ka false) as (ra & Ya & (tra & Sa & Ra) & Ca). destruct (Kb false) as (rb & Yb & (trb & Sb & Rb) & Cb).
      assert (K : exists r, yields false (EAdd a' b') r /\ res true r (deriv x t1 ++ deriv x t2) /\
                    (numeric (deriv x t1 ++ deriv x t2) -> exists c, r = EReal c)).
      { destruct (numeric_dec (deriv x t1 ++ deriv x t2)) as [Nm|Nm].
        - destruct Ca as (c1 & ->); [intros p Hp; apply (Nm p); rewrite keys_app; apply in_or_app; now left|].
          destruct Cb as (c2 & ->); [intros p Hp; apply (Nm p); rewrite keys_app; apply in_or_app; now right|].
          destruct (plain_const _ _ _ (proj1 Sa)) as (z1 & -> & L1). destruct (plain_const _ _ _ (proj1 Sb)) as (z2 & -> & L2).
          exists (EReal (n_add c1 c2)). split; [now apply yields_lit_add|]. split; [|eauto].
          apply (res_term lit true) with (t := (None, z1 + z2)).
          + constructor. apply (il_add _ _ _ IL); auto. eapply okle; [exact Hw|].
            destruct Ra as (_ & _ & Wa & _), Rb as (_ & _ & Wb & _). cbn -[Z.abs Z.add] in Wa, Wb. lia.
          + eapply refines_trans; [apply refines_merge|]. exact (refines_app _ _ _ _ Ra Rb).
        - assert (Hap : apart tra trb).
          { destruct (numeric_dec (deriv x t1)) as [N1|(p & Hp)].
            - destruct (Ca N1) as (c1 & ->). destruct (plain_const _ _ _ (proj1 Sa)) as (z1 & -> & L1). now left.
            - right. right. exists p. destruct (deriv_keys x p t1 Hp) as (j & -> & J & Hj). split.
              + destruct Ra as (Ta & _). rewrite Ta, total_deriv_some by exact J.
                unfold keys in Hj. apply in_map_iff in Hj. destruct Hj as ([k z] & Ek & Hz). cbn [fst] in Ek. subst k.
                rewrite (total_nodup _ _ _ D1 Hz). destruct (Forall2_in_r _ _ _ _ F1 Hz) as (e1 & _ & Ne).
                assert (j + 1 <> 0 /\ z <> 0).
                { inversion Ne as [|e2 x2 k2 Hp2|c2 z2 e2 x2 k2 Hc2 Z0 Z1 Hp2]; subst; (split; [inversion Hp2; lia|lia]). }
                nia.
              + intros Hi. destruct Rb as (_ & Kb' & _). apply Kb', deriv_keys in Hi. destruct Hi as (j' & E & _ & Hi).
                injection E as <-. exact (D12 _ Hj Hi). }
          destruct (yields_add lit ok IL true false a' b' ra rb tra trb) as (r & Yr & (tr & Str & Rtr)); auto.
          + exists tra. split; [exact Sa|apply refines_refl].
          + exists trb. split; [exact Sb|apply refines_refl].
          + rewrite weight_app. eapply okle; [exact Hw|]. destruct Ra as (_ & _ & Wa & _), Rb as (_ & _ & Wb & _).
            pose proof (weight_nonneg tra). pose proof (weight_nonneg trb). lia.
          + exists r. split; [exact Yr|]. split.
            * exists tr. split; [exact Str|]. eapply refines_trans; [exact Rtr|]. exact (refines_app _ _ _ _ Ra Rb).
            * intros Hn. destruct Nm as (p & Hp). destruct (Hn p Hp). }
      destruct K as (r & Yr & (tr & Str & Rtr) & Cr). exists r. split; [now apply (derives_add x a b a' b')|].
      intros prefer. destruct (numeric_dec (deriv x t1 ++ deriv x t2)) as [Nm|Nm].
      + destruct (Cr Nm) as (c & ->). exists (EReal c). split; [apply yields_real|]. split; [exists tr; now split|eauto].
      + destruct (plain_yields lit ok IL true prefer r tr (proj1 Str)) as (r' & Y' & (tr' & S' & R')).
        { eapply okle; [exact Hw|]. destruct Rtr as (_ & _ & W & _). pose proof (weight_nonneg tr). rewrite weight_app in W. lia. }
        exists r'. split; [exact Y'|]. split; [exists tr'; split; [exact S'|eapply refines_trans; eauto]|].
        intros Hn. destruct Nm as (p & Hp). destruct (Hn p Hp).
  Qed.

  (** ** Simplify on a Derivative *)
  (* the operand is simplified, differentiated, and the result simplified twice *)
  Lemma deriv_run prefer e e1 x d r r' : yields prefer e e1 -> derives e1 x d -> yields prefer d r -> yields prefer r r' ->
    exists n0, forall n, (n0 <= n)%nat -> snd (simp n prefer (EDeriv e (EVar x))) = Ok r'.
  Proof.
    intros (n1 & H1) (n2 & H2) (n3 & H3) (n4 & H4). exists (S (S (n1 + n2 + n3 + n4))). intros n L.
    destruct n as [|m]; [lia|]. change (simp (S m) prefer (EDeriv e (EVar x))) with
      (visit_deriv (simp m prefer) (differentiate_with (diff m false)) e (EVar x)). unfold visit_deriv.
    rewrite (operands_run _ _ _ _ e1 (EVar x)); [|eapply yields_ge; [exact H1|lia]|eapply (yields_ge prefer _ _ 1); [reflexivity|lia]].
    unfold differentiate_with. rewrite (derives_ge _ _ _ n2 m H2), try_ok by lia. rewrite bind_ok. cbn [ret]. unfold ret. rewrite bind_ok.
    rewrite (yields_ge prefer _ _ n3 m H3), bind_ok by lia. rewrite (yields_ge prefer _ _ n4 m H4) by lia.
    destruct (negb _); reflexivity.
  Qed.

  (* what a single term is simplified to *)
  Lemma term_settles prefer e t : term false e t -> exists e1, yields prefer e e1 /\
    (neat e1 t \/ exists c, e1 = EReal c /\ forall x, refines [(None, 0)] [deriv1 x t]).
  Proof.
    assert (K : forall k x, refines [(None, 0)] [deriv1 x (k, 0)]).
    { intros k x. assert (E : deriv1 x (k, 0) = (fst (deriv1 x (k, 0)), 0 * 1)).
      { unfold deriv1. cbn [fst snd]. destruct k as [[y j]|]; [|reflexivity]. destruct (String.eqb y x); [|reflexivity].
        destruct (j =? 1); cbn [fst]; f_equal; lia. }
      rewrite E. apply (refines_scale_zero [(fst (deriv1 x (k, 0)), 1)]). cbn. lia. }
    intros H. destruct H as [c z Hc|p y k Hp|c z p y k m Hc Hp Hm].
    - exists (EReal c). split; [apply yields_real|]. right. exists c. split; [reflexivity|]. intros; apply refines_refl.
    - exists p. split; [eapply yields_power; eauto|]. left. now constructor.
    - destruct Hm; [|discriminate]. eexists. split; [eapply (yields_multiple prefer false); [exact Hc|exact Hp|apply ml_pre]|].
      unfold scaled. destruct (Z.eqb_spec z 0) as [->|Z0]; [right; exists n0; split; [reflexivity|intros; apply K]|].
      destruct (Z.eqb_spec z 1) as [->|Z1]; left; now constructor.
  Qed.

  (** The exponents of [ts] less one are exact. *)
  Definition lowerable (ts : list monomial) : Prop := forall y k, In (Some (y, k)) (keys ts) -> ok (k - 1).

  Theorem deriv_res prefer post e ts x : poly lit ok prefer post e ts -> two_left ts \/ term false e (hd (None, 0) ts) /\ length ts = 1%nat ->
    lowerable ts -> ok (weight ts) -> ok (weight (deriv x ts)) ->
    exists r, (exists n0, forall n, (n0 <= n)%nat -> snd (simp n prefer (EDeriv e (EVar x))) = Ok r) /\ res true r (deriv x ts).
  Proof.
    intros He H2 Hk Hw Hwd.
    assert (K : exists e1 e' r, yields prefer e e1 /\ derives e1 x e' /\ yields prefer e' r /\ res true r (deriv x ts)).
    { destruct H2 as [H2|[Ht L]].
      - destruct (poly_combined lit ok IL prefer post e ts He Hw H2) as (l & e1 & Y & B & (tl & Fl & Dl & Tl) & _).
        assert (Wd : ok (weight (deriv x tl))).
        { eapply okle; [exact Hwd|]. pose proof (weight_nonneg (deriv x tl)) as W0. pose proof (weight_nonneg (deriv x ts)).
          rewrite !weight_deriv in *. pose proof (wsum_combined x tl ts Dl Tl). lia. }
        assert (Ik : forall p, In p (keys tl) -> In p (keys ts)).
        { intros p Hp. unfold keys in Hp. apply in_map_iff in Hp. destruct Hp as ([k z] & E & Hz). cbn [fst] in E. subst k.
          apply total_in. rewrite <- Tl, (total_nodup _ _ _ Dl Hz). destruct (Forall2_in_r _ _ _ _ Fl Hz) as (e2 & _ & Ne).
          inversion Ne; subst; lia. }
        destruct (tree_diff x _ l e1 (build_balanced _ _ _ B) tl Fl Dl) as (e' & D & K); [intros y k Hi; apply (Hk y); auto|exact Wd|].
        destruct (K prefer) as (r & Yr & (tr & St & Rt) & _). exists e1, e', r. split; [exact Y|]. split; [exact D|]. split; [exact Yr|].
        exists tr. split; [exact St|]. eapply refines_trans; [exact Rt|]. repeat split.
        + now apply total_deriv.
        + intros p Hp. destruct (deriv_keys x p tl Hp) as (j & -> & J & Hj). apply total_in. rewrite total_deriv_some by exact J.
          unfold keys in Hj. apply in_map_iff in Hj. destruct Hj as ([k z] & E & Hz). cbn [fst] in E. subst k.
          rewrite <- Tl, (total_nodup _ _ _ Dl Hz). destruct (Forall2_in_r _ _ _ _ Fl Hz) as (e2 & _ & Ne).
          assert (j + 1 <> 0 /\ z <> 0); [|nia].
          inversion Ne as [|e3 x3 k3 Hp3|c3 z3 e3 x3 k3 Hc3 Z0 Z1 Hp3]; subst; (split; [inversion Hp3; lia|lia]).
        + rewrite !weight_deriv. now apply wsum_combined.
        + unfold deriv. rewrite !map_length. pose proof (NoDup_incl_length Dl Ik) as K'. unfold keys in K'. now rewrite !map_length in K'.
      - destruct ts as [|t [|t' ts]]; try discriminate L. cbn [hd] in Ht.
        destruct (term_settles prefer e t Ht) as (e1 & Y & [Ne|(c & -> & R)]).
        + destruct (term_diff x e1 t Ne) as (e' & D & K).
          { intros y k E. apply (Hk y). rewrite <- E. now left. }
          { eapply okle; [exact Hwd|]. cbn -[Z.abs]. lia. }
          destruct (K prefer) as (r & Yr & (u & Tu & Ru) & _). exists e1, e', r. split; [exact Y|]. split; [exact D|]. split; [exact Yr|].
          eapply res_term; eauto.
        + exists (EReal c), (real 0), (real 0). split; [exact Y|]. split; [apply derives_real|]. split; [apply yields_real|].
          eapply res_term; [constructor; apply lit0|apply R]. }
    destruct K as (e1 & e' & r & Y & D & Yr & (tr & St & Rt)).
    destruct (plain_yields lit ok IL true prefer r tr (proj1 St)) as (r' & Y' & (tr' & S' & R')).
    { eapply okle; [exact Hwd|]. destruct Rt as (_ & _ & W & _). pose proof (weight_nonneg tr). lia. }
    exists r'. split; [eapply deriv_run; eauto|]. exists tr'. split; [exact S'|eapply refines_trans; eauto].
  Qed.
End Diff.
