(** Integrals of sums of terms c, c*x, c*x^k (SpecPoly.v). *)
From Coq Require Import String Bool Arith ZArith List Lia Permutation.
From Verif Require Import Base Num Expr Ghost Simplify Calculus Spec SpecPoly SpecPolyInt TreeProofs MonadProofs FuelProofs PolyProofs SumProofs.
Import ListNotations.
Open Scope string_scope.
Open Scope list_scope.
Open Scope nat_scope.

(** ** How BuildFromVector splits its operands *)
Section Build.
  Context {num : Type}.
  Notation E := (expr num).
  Variable o : binop.

  (* the tree over a list that is not empty *)
  Definition tree (l : list E) : option E := build_loop (length l) o l.

  Lemma pair_pass_half (l : list E) : length (pair_pass o l) = Nat.div2 (S (length l)).
  Proof.
    enough (forall n l, length l <= n -> length (pair_pass o l) = Nat.div2 (S (length l))) by (eapply H; eauto).
    intros n. induction n as [|n IH]; intros m Hm.
    - destruct m; [reflexivity|cbn in Hm; lia].
    - destruct m as [|a [|b m]]; [reflexivity|reflexivity|]. cbn [pair_pass length]. rewrite IH by (cbn in Hm; lia). reflexivity.
  Qed.
  Lemma div2_le n : 2 <= n -> 1 <= Nat.div2 (S n) < n.
  Proof. intros H. rewrite Nat.div2_div. split; [apply Nat.div_le_lower_bound; lia|apply Nat.div_lt_upper_bound; lia]. Qed.

  Lemma build_loop_enough : forall n m (l : list E), 1 <= length l <= n -> length l <= m -> build_loop n o l = build_loop m o l.
  Proof.
    induction n as [|n IH]; intros m l H1 H2; [lia|]. destruct m as [|m]; [lia|].
    destruct l as [|a [|b l]]; [cbn in H1; lia|reflexivity|]. cbn [build_loop].
    pose proof (pair_pass_half (a :: b :: l)) as P. pose proof (div2_le (length (a :: b :: l)) ltac:(cbn; lia)) as D.
    rewrite <- P in D. apply IH; lia.
  Qed.
  Lemma tree_pass (l : list E) : l <> [] -> tree (pair_pass o l) = tree l.
  Proof.
    intros H. destruct l as [|a [|b l]]; [congruence|reflexivity|]. unfold tree at 2.
    change (length (a :: b :: l)) with (S (S (length l))).
    change (build_loop (S (S (length l))) o (a :: b :: l)) with (build_loop (S (length l)) o (pair_pass o (a :: b :: l))).
    pose proof (pair_pass_half (a :: b :: l)) as P. pose proof (div2_le (length (a :: b :: l)) ltac:(cbn; lia)) as D.
    rewrite <- P in D. apply build_loop_enough; [lia|]. change (length (a :: b :: l)) with (S (S (length l))) in D. lia.
  Qed.
  Lemma pair_pass_app (l1 l2 : list E) k : length l1 = 2 * k -> pair_pass o (l1 ++ l2) = pair_pass o l1 ++ pair_pass o l2.
  Proof.
    revert l1. induction k as [|k IH]; intros l1 H; [destruct l1; [reflexivity|cbn in H; lia]|].
    destruct l1 as [|a [|b l1]]; [cbn in H; lia|cbn in H; lia|]. cbn [app pair_pass]. rewrite IH; [reflexivity|cbn in H; lia].
  Qed.
  Lemma pair_pass_nil (l : list E) : pair_pass o l = [] -> l = [].
  Proof. destruct l as [|a [|b l]]; [auto|discriminate|discriminate]. Qed.

  Lemma tree_split j : forall l1 l2 : list E, length l1 = 2 ^ j -> 1 <= length l2 <= 2 ^ j ->
    exists a b, tree l1 = Some a /\ tree l2 = Some b /\ tree (l1 ++ l2) = Some (EBin o a b).
  Proof.
    induction j as [|j IH]; intros l1 l2 H1 H2.
    - destruct l1 as [|a [|? ?]]; try discriminate. destruct l2 as [|b [|? ?]]; cbn in H2; try lia.
      exists a, b. repeat split.
    - assert (P := pair_pass_half l1). assert (Q := pair_pass_half l2). rewrite Nat.pow_succ_r' in H1, H2.
      destruct (IH (pair_pass o l1) (pair_pass o l2)) as (a & b & Ha & Hb & Hab).
      + rewrite P, H1. change (S (2 * 2 ^ j)) with (1 + 2 * 2 ^ j). rewrite Nat.add_comm. replace (2 * 2 ^ j + 1) with (S (2 * 2 ^ j)) by lia.
        apply Nat.div2_succ_double.
      + rewrite Q. split.
        * rewrite Nat.div2_div. apply Nat.div_le_lower_bound; lia.
        * rewrite Nat.div2_div. enough (S (length l2) / 2 < S (2 ^ j)) by lia. apply Nat.div_lt_upper_bound; lia.
      + rewrite tree_pass in Ha by (intros ->; cbn in H1; lia). rewrite tree_pass in Hb by (intros ->; cbn in H2; lia).
        rewrite <- (pair_pass_app l1 l2 (2 ^ j) H1), tree_pass in Hab by (destruct l1; [cbn in H1; lia|discriminate]).
        exists a, b. auto.
  Qed.
  Lemma tree_build (l : list E) : 2 <= length l -> build o l = tree l.
  Proof. intros H. destruct l as [|a [|b l]]; [cbn in H; lia|cbn in H; lia|reflexivity]. Qed.
  Lemma tree_some (l : list E) : l <> [] -> exists t, tree l = Some t.
  Proof. intros H. apply build_loop_fuel. destruct l; [congruence|cbn; lia]. Qed.
  Lemma tree_tree_over (l : list E) t : tree l = Some t -> tree_over o (Nat.log2_up (length l)) l t.
  Proof.
    intros H. destruct l as [|a [|b l]]; [discriminate|injection H as <-; constructor|]. apply build_balanced. exact H.
  Qed.
End Build.

(** [n] split as BuildFromVector splits [n] operands. *)
Lemma split_size n : 2 <= n -> exists j, 2 ^ j < n <= 2 * 2 ^ j /\ Nat.log2_up n = S j.
Proof.
  intros H. exists (Nat.pred (Nat.log2_up n)). pose proof (Nat.log2_up_spec n ltac:(lia)) as [A B].
  pose proof (Nat.log2_up_pos n ltac:(lia)). rewrite <- Nat.pow_succ_r' . destruct (Nat.log2_up n); [lia|]. cbn [Nat.pred] in *. auto.
Qed.

Section Terms.
  Context {num : Type} {N : NumOps num}.
  Variables (lit : num -> Z -> Prop) (ok : Z -> Prop).
  Hypothesis IL : IntLits N lit ok.
  Notation E := (expr num).
  Notation power := (power lit).
  Notation gterm := (gterm lit).
  Notation gsum := (gsum lit).
  Notation wf := (wf lit).
  Notation item := (@item num).
  Notation simp := (simp (N := N)).
  Open Scope Z_scope.

  (** Exponents for which the reciprocal is neither 1 nor dropped as too small. *)
  Variable small : Z -> Prop.
  Hypothesis Hord : forall a k, lit a k -> 2 <= k -> n_ltb a n0 = false.
  Hypothesis Hdiv : forall a k, lit a k -> 2 <= k -> small k -> n_eqb (n_div n1 a) n1 = false /\ tiny (n_div n1 a) = false.

  Local Lemma ok2 : ok 2. Proof. apply (il_ok_2 _ _ _ IL). Qed.
  Local Lemma ok1 : ok 1. Proof. eapply (il_ok_le _ _ _ IL); [apply ok2|lia]. Qed.
  Local Lemma lit1 : lit n1 1. Proof. apply (il_of_Z _ _ _ IL), ok1. Qed.
  Local Lemma lit2 : lit n2 2. Proof. apply (il_of_Z _ _ _ IL), ok2. Qed.
  Local Lemma lit0 : lit n0 0. Proof. apply (il_of_Z _ _ _ IL). eapply (il_ok_le _ _ _ IL); [apply ok2|lia]. Qed.
  Local Lemma tiny1 : tiny n1 = false.
  Proof. exact (il_tiny _ _ _ IL n1 1 lit1). Qed.
  Local Lemma lit_neq1 a k : lit a k -> 2 <= k -> n_eqb a n1 = false.
  Proof. intros H K. rewrite (il_eqb _ _ _ IL a n1 k 1 H lit1). apply Z.eqb_neq. lia. Qed.

  Variable prefer : bool.

  (** x^K / K *)
  Lemma simp_div n x a k : lit a k -> 2 <= k -> small k ->
    simp (S (S (S n))) prefer (EDiv (EExp (EVar x) (EReal a)) (EReal a)) =
      ([], Ok (EMul (EExp (EVar x) (EReal a)) (EReal (n_div n1 a)))).
  Proof.
    intros Ha Hk Hs. destruct (Hdiv a k Ha Hk Hs) as [D1 D2].
    assert (SP : simp (S (S n)) prefer (EExp (EVar x) (EReal a)) = ([], Ok (EExp (EVar x) (EReal a)))).
    { eapply (simp_power lit ok IL prefer n _ x k). constructor; auto; lia. }
    change (simp (S (S (S n))) prefer (EDiv (EExp (EVar x) (EReal a)) (EReal a))) with
      (visit_div (simp (S (S n)) prefer) (EExp (EVar x) (EReal a)) (EReal a)).
    unfold visit_div. rewrite (operands_run _ _ _ _ _ _ SP (eq_refl : simp (S (S n)) prefer (EReal a) = ([], Ok (EReal a)))).
    cbn -[simp n1 n0 n_div n_ltb n_eqb n_mul nm1]. rewrite (Hord a k Ha Hk), D1. cbn -[simp n1 n0 n_div n_ltb n_eqb n_mul nm1].
    unfold strip_exp. cbn -[simp n1 n0 n_div n_ltb n_eqb n_mul nm1]. rewrite (lit_neq1 a k Ha Hk). reflexivity.
  Qed.

  (** d * P for a coefficient that is neither 0 nor 1 *)
  Lemma simp_pre n d p x k : power p x k -> tiny d = false -> n_eqb d n1 = false ->
    simp (S (S (S n))) prefer (EMul (EReal d) p) = ([], Ok (EMul (EReal d) p)).
  Proof.
    intros Hp Ht Hd. pose proof (simp_power lit ok IL prefer n p x k Hp) as SP.
    change (simp (S (S (S n))) prefer (EMul (EReal d) p)) with (visit_mul (simp (S (S n)) prefer) prefer (EReal d) p).
    unfold visit_mul. rewrite (operands_run (simp (S (S n)) prefer) (EReal d) p _ (EReal d) p eq_refl SP).
    assert (K : mul_478 (simp (S (S n)) prefer) (EReal d) p = ([], Ok None)).
    { unfold mul_478. destruct Hp; cbn -[n1 n0 tiny]; rewrite Ht, Hd; reflexivity. }
    cbn [mul_rules first_rule]. rewrite K, bind_ok. clear K SP.
    destruct Hp as [x|x c k Hc K0 K1];
      (cbn -[mul_rest Calculus.simp n0 n1]; unfold mul_rest; cbn -[Calculus.simp n0 n1]; unfold strip_exp; cbn -[n0 n1]; change (n_of_Z 1) with n1).
    - rewrite (il_eqb _ _ _ IL n1 n1 1 1 lit1 lit1). reflexivity.
    - rewrite (il_eqb _ _ _ IL c n1 k 1 Hc lit1). apply Z.eqb_neq in K1. rewrite K1. reflexivity.
  Qed.
  (** c * (d * P) *)
  Lemma simp_pre_pre n c d p x k : power p x k -> tiny c = false -> n_eqb c n1 = false -> tiny d = false -> n_eqb d n1 = false ->
    simp (S (S (S (S n)))) prefer (EMul (EReal c) (EMul (EReal d) p)) = ([], Ok (EMul (EReal (n_mul c d)) p)).
  Proof.
    intros Hp Tc Hc Td Hd. pose proof (simp_pre n d p x k Hp Td Hd) as SP.
    change (simp (S (S (S (S n)))) prefer (EMul (EReal c) (EMul (EReal d) p))) with
      (visit_mul (simp (S (S (S n))) prefer) prefer (EReal c) (EMul (EReal d) p)).
    unfold visit_mul. rewrite (operands_run (simp (S (S (S n))) prefer) (EReal c) (EMul (EReal d) p) _ (EReal c) (EMul (EReal d) p) eq_refl SP).
    assert (K : mul_478 (simp (S (S (S n))) prefer) (EReal c) (EMul (EReal d) p) = ([], Ok None)).
    { unfold mul_478. cbn -[n1 n0 tiny]. rewrite Tc, Hc. reflexivity. }
    unfold mul_rules. rewrite first_no by exact K. clear K SP.
    destruct Hp as [x|x e k He K0 K1]; (do 22 (rewrite first_no; [|reflexivity])); cbn [first_rule]; unfold mul_rest; cbn -[Calculus.simp n0 n1];
      unfold strip_exp; cbn -[n0 n1]; change (n_of_Z 1) with n1.
    - rewrite (il_eqb _ _ _ IL n1 n1 1 1 lit1 lit1). reflexivity.
    - rewrite (il_eqb _ _ _ IL e n1 k 1 He lit1). apply Z.eqb_neq in K1. rewrite K1. reflexivity.
  Qed.

  (** ** Trees of normal terms *)
  Lemma norm_C x : norm (n1, EVar x, (x, 1)) = EVar x.
  Proof. unfold norm, coef, base. cbn [fst snd]. now rewrite (il_eqb _ _ _ IL n1 n1 1 1 lit1 lit1). Qed.
  Lemma norms il : Forall wf il -> Forall big il ->
    exists il', Forall2 gterm (map norm il) il' /\ ikeys il' = ikeys il /\ map norm il' = map norm il /\ Forall big il'.
  Proof.
    intros H B. induction H as [|i il Hi H IH]; [exists []; repeat split; constructor|]. inversion B as [|? ? B1 B2]; subst.
    destruct (IH B2) as (il' & F & K & M & B'). destruct (norm_gterm lit ok IL i Hi) as (i' & G & K1 & M1 & B1').
    exists (i' :: il'). cbn [map ikeys]. unfold ikeys in *. cbn [map]. rewrite K, K1, M, M1. repeat split; constructor; auto. apply B1'; auto. apply tiny1.
  Qed.
  Lemma gterms_tree d l t il : tree_over OAdd d l t -> Forall2 gterm l il -> gsum t il.
  Proof.
    intros H. revert il. induction H as [d e|d l1 l2 a b H1 IH1 H2 IH2]; intros il F.
    - inversion F as [|? i ? l' G F']; subst. inversion F'; subst. now constructor.
    - apply Forall2_app_inv_l in F. destruct F as (i1 & i2 & F1 & F2 & ->). constructor; auto.
  Qed.
  Lemma yields_norm i : wf i -> big i -> yields prefer (norm i) (norm i).
  Proof.
    intros Hw Hb. unfold norm. destruct (n_eqb (coef i) n1) eqn:E1.
    - exists 2%nat. eapply (simp_power lit ok IL prefer 0). exact Hw.
    - exists 3%nat. eapply (simp_pre 0); eauto.
  Qed.
  Lemma yields_tree d il : forall l t, tree_over OAdd d l t -> l = map norm il -> Forall wf il -> Forall big il -> NoDup (ikeys il) ->
    exists r, yields prefer t r /\ tree OAdd l = Some r.
  Proof.
    intros l t H. revert il. induction H as [d e|d l1 l2 a b H1 IH1 H2 IH2]; intros il El Hw Hb Hd.
    - destruct il as [|i [|? ?]]; try discriminate. injection El as ->. exists (norm i). split; [|reflexivity].
      inversion Hw; inversion Hb; subst. now apply yields_norm.
    - symmetry in El. apply map_eq_app in El. destruct El as (i1 & i2 & -> & E1 & E2).
      apply Forall_app in Hw, Hb. destruct Hw as [W1 W2], Hb as [B1 B2]. assert (Hd' := Hd). unfold ikeys in Hd'. rewrite map_app in Hd'.
      apply nodup_app in Hd'. destruct Hd' as (D1 & D2 & _).
      destruct (IH1 i1 (eq_sym E1) W1 B1 D1) as (a' & Ya & Ta). destruct (IH2 i2 (eq_sym E2) W2 B2 D2) as (b' & Yb & Tb).
      destruct (norms i1 W1 B1) as (j1 & F1 & K1 & M1 & C1). destruct (norms i2 W2 B2) as (j2 & F2 & K2 & M2 & C2).
      apply tree_over_nonempty in H1, H2.
      destruct (tree_some OAdd (l1 ++ l2)) as (r & Hr); [destruct l1; [cbn in H1; lia|discriminate]|].
      exists r. split; [|exact Hr]. subst l1 l2.
      apply (yields_add_distinct lit ok IL prefer a b a' b' j1 j2 r Ya Yb).
      + eapply gterms_tree; [eapply tree_tree_over; exact Ta|exact F1].
      + eapply gterms_tree; [eapply tree_tree_over; exact Tb|exact F2].
      + unfold ikeys in *. rewrite map_app, K1, K2, <- map_app. exact Hd.
      + apply Forall_app. auto.
      + rewrite map_app, M1, M2, tree_build; [exact Hr|]. rewrite app_length. lia.
  Qed.
  (* a sum of two trees *)
  Lemma yields_trees i1 i2 a b : i1 <> [] -> i2 <> [] -> tree OAdd (map norm i1) = Some a -> tree OAdd (map norm i2) = Some b ->
    Forall wf (i1 ++ i2) -> Forall big (i1 ++ i2) -> NoDup (ikeys (i1 ++ i2)) ->
    exists r, yields prefer (EAdd a b) r /\ tree OAdd (map norm (i1 ++ i2)) = Some r.
  Proof.
    intros N1 N2 Ha Hb Hw Hbig Hd.
    apply (yields_tree (S (max (Nat.log2_up (length (map norm i1))) (Nat.log2_up (length (map norm i2))))) (i1 ++ i2)); auto.
    rewrite map_app. constructor; eapply tree_over_mono; try (apply tree_tree_over; eassumption); lia.
  Qed.
End Terms.

(** ** Counting *)
Lemma log2_two_digits n : 1 <= n -> Nat.log2 (two_digits n) = Nat.log2 n.
Proof.
  intros H. destruct n as [|[|n]]; [lia|reflexivity|]. unfold two_digits. set (m := S (S n)) in *.
  destruct (split_size m ltac:(lia)) as (j & L & ->). replace (S j - 1) with j by lia. cbv zeta.
  assert (K : 2 ^ Nat.log2 (m - 2 ^ j) <= m - 2 ^ j) by (apply Nat.log2_spec; lia).
  destruct (Nat.eq_dec m (2 * 2 ^ j)) as [E1|E1].
  - rewrite E1. replace (2 * 2 ^ j - 2 ^ j) with (2 ^ j) by lia. rewrite Nat.log2_pow2 by lia.
    f_equal. lia.
  - assert (A : Nat.log2 m = j) by (apply Nat.log2_unique; [lia|cbn [Nat.pow]; lia]). rewrite A.
    apply Nat.log2_unique; [lia|cbn [Nat.pow]; lia].
Qed.
Lemma two_digits_pow j : two_digits (2 ^ j) = 2 ^ j.
Proof.
  destruct j as [|j]; [reflexivity|]. pose proof (Nat.pow_nonzero 2 j ltac:(lia)).
  unfold two_digits. rewrite Nat.log2_up_pow2 by lia. replace (S j - 1) with j by lia.
  assert (K : 2 ^ S j = 2 ^ j + 2 ^ j) by (cbn; lia). destruct (2 ^ S j) as [|[|m]] eqn:E1; [lia|lia|]. rewrite K.
  replace (2 ^ j + 2 ^ j - 2 ^ j) with (2 ^ j) by lia. rewrite Nat.log2_pow2 by lia. reflexivity.
Qed.
Lemma two_digits_split j n : 1 <= n <= 2 ^ j -> two_digits (2 ^ j + n) = 2 ^ j + 2 ^ Nat.log2 n.
Proof.
  intros H. pose proof (Nat.pow_nonzero 2 j ltac:(lia)). unfold two_digits.
  assert (K : Nat.log2_up (2 ^ j + n) = S j). { apply Nat.log2_up_unique; cbn [Nat.pred]; [lia|]. rewrite Nat.pow_succ_r'. lia. }
  rewrite K. replace (S j - 1) with j by lia. replace (2 ^ j + n - 2 ^ j) with n by lia.
  destruct (2 ^ j + n) as [|[|m]] eqn:E1; [lia|lia|reflexivity].
Qed.
Lemma two_digits_le n : two_digits n <= n.
Proof.
  destruct n as [|[|n]]; [reflexivity|reflexivity|]. destruct (split_size (S (S n)) ltac:(lia)) as (j & L & _).
  replace (S (S n)) with (2 ^ j + (S (S n) - 2 ^ j)) by lia. rewrite two_digits_split by lia.
  pose proof (Nat.log2_spec (S (S n) - 2 ^ j) ltac:(lia)). lia.
Qed.
Lemma two_digits_two n : 2 <= n -> 2 <= two_digits n.
Proof.
  intros H. destruct (split_size n H) as (j & L & _).
  replace n with (2 ^ j + (n - 2 ^ j)) by lia. rewrite two_digits_split by lia.
  pose proof (Nat.pow_nonzero 2 j ltac:(lia)). pose proof (Nat.pow_nonzero 2 (Nat.log2 (n - 2 ^ j)) ltac:(lia)). lia.
Qed.
Lemma two_digits_eq n : 1 <= n -> (two_digits n = n <-> two_powers n).
Proof.
  intros H. split.
  - intros E1. destruct n as [|[|n]]; [lia|exists 0, 0; now left|]. destruct (split_size (S (S n)) ltac:(lia)) as (j & L & _).
    replace (S (S n)) with (2 ^ j + (S (S n) - 2 ^ j)) in E1 at 1 by lia. rewrite two_digits_split in E1 by lia.
    exists j, (Nat.log2 (S (S n) - 2 ^ j)). right. lia.
  - assert (K : forall i j, i <= j -> two_digits (2 ^ j + 2 ^ i) = 2 ^ j + 2 ^ i).
    { intros i j L. rewrite two_digits_split; [now rewrite Nat.log2_pow2 by lia|].
      pose proof (Nat.pow_nonzero 2 i ltac:(lia)). split; [lia|]. apply Nat.pow_le_mono_r; lia. }
    intros (i & j & [-> | ->]); [apply two_digits_pow|]. destruct (Nat.le_ge_cases i j); [|now apply K].
    rewrite Nat.add_comm. now apply K.
Qed.

Section Integrals.
  Context {num : Type} {N : NumOps num}.
  Variables (lit : num -> Z -> Prop) (ok : Z -> Prop).
  Hypothesis IL : IntLits N lit ok.
  Notation E := (expr num).
  Notation power := (power lit).
  Notation wf := (wf lit).
  Notation item := (@item num).
  Notation simp := (simp (N := N)).
  Notation integ := (integ (N := N)).
  Open Scope Z_scope.

  Variable top : Z.
  Hypothesis Hok : ok top.
  Hypothesis Hord : forall a k, lit a k -> 2 <= k -> n_ltb a n0 = false.
  Hypothesis Hdiv : forall a k, lit a k -> 2 <= k <= top -> n_eqb (n_div n1 a) n1 = false /\ tiny (n_div n1 a) = false.
  Hypothesis Hmul : forall d z a k, lit d z -> z <> 0 -> lit a k -> 2 <= k <= top -> tiny (n_mul d (n_div n1 a)) = false.

  Local Lemma iok2 : ok 2. Proof. apply (il_ok_2 _ _ _ IL). Qed.
  Local Lemma iok1 : ok 1. Proof. eapply (il_ok_le _ _ _ IL); [apply iok2|lia]. Qed.
  Local Lemma ilit1 : lit n1 1. Proof. apply (il_of_Z _ _ _ IL), iok1. Qed.
  Local Lemma ilit2 : lit n2 2. Proof. apply (il_of_Z _ _ _ IL), iok2. Qed.
  Local Lemma ilit0 : lit n0 0. Proof. apply (il_of_Z _ _ _ IL). eapply (il_ok_le _ _ _ IL); [apply iok2|lia]. Qed.
  Local Lemma ilitm : lit nm1 (-1). Proof. apply (il_of_Z _ _ _ IL). eapply (il_ok_le _ _ _ IL); [apply iok2|lia]. Qed.
  Local Lemma itiny a z : lit a z -> z <> 0 -> tiny a = false.
  Proof. intros H Hz. unfold tiny. rewrite (il_tiny _ _ _ IL a z H). now apply Z.eqb_neq. Qed.
  Local Lemma ieqb a z b w : lit a z -> lit b w -> z <> w -> n_eqb a b = false.
  Proof. intros H1 H2 Hz. rewrite (il_eqb _ _ _ IL a b z w H1 H2). now apply Z.eqb_neq. Qed.

  Variable x : string.
  Hypothesis Hx : x <> "C".

  (* a term and its integral *)
  Inductive prim : E -> monomial -> item -> Prop :=
  | pr_const c z : lit c z -> z <> 0 -> prim (EReal c) (None, z) (c, EVar x, (x, 1))
  | pr_var : 2 <= top -> prim (EVar x) (Some (x, 1), 1) (n_div n1 n2, EExp (EVar x) (EReal n2), (x, 2))
  | pr_exp c k : lit c k -> 2 <= k < top ->
      prim (EExp (EVar x) (EReal c)) (Some (x, k), 1) (n_div n1 (n_add c n1), EExp (EVar x) (EReal (n_add c n1)), (x, k + 1))
  | pr_scaled_var d z : lit d z -> z <> 0 -> z <> 1 -> 2 <= top ->
      prim (EMul (EReal d) (EVar x)) (Some (x, 1), z) (n_mul d (n_div n1 n2), EExp (EVar x) (EReal n2), (x, 2))
  | pr_scaled_exp d z c k : lit d z -> z <> 0 -> z <> 1 -> lit c k -> 2 <= k < top ->
      prim (EMul (EReal d) (EExp (EVar x) (EReal c))) (Some (x, k), z)
           (n_mul d (n_div n1 (n_add c n1)), EExp (EVar x) (EReal (n_add c n1)), (x, k + 1)).

  Lemma lit_next c k : lit c k -> 2 <= k < top -> lit (n_add c n1) (k + 1).
  Proof. intros H L. apply (il_add _ _ _ IL); auto using ilit1. eapply (il_ok_le _ _ _ IL); [apply Hok|lia]. Qed.

  Lemma neat_prim e t : neat lit e t -> (forall y k, fst t = Some (y, k) -> y = x /\ 1 <= k < top) -> exists i, prim e t i.
  Proof.
    intros H K. destruct H as [c z Hc Hz|e y k Hp|c z e y k Hc Z0 Z1 Hp]; cbn [fst] in K.
    - eexists. now constructor.
    - destruct (K y k eq_refl) as [Ey L]. destruct Hp as [y|y c k Hc K0 K1]; subst y; eexists; [apply pr_var|apply pr_exp]; auto; lia.
    - destruct (K y k eq_refl) as [Ey L]. destruct Hp as [y|y d k Hd K0 K1]; subst y; eexists; [eapply pr_scaled_var|eapply pr_scaled_exp]; eauto; lia.
  Qed.
  Lemma prim_neat e t i : prim e t i -> neat lit e t.
  Proof. intros H. destruct H; constructor; auto; constructor; auto; lia. Qed.
  Lemma prim_wf e t i : prim e t i -> wf i.
  Proof. intros H. destruct H; unfold SumProofs.wf; cbn; constructor; try lia; auto using ilit2, lit_next. Qed.
  Lemma prim_big e t i : prim e t i -> big i.
  Proof.
    intros H. unfold big. destruct H; cbn [coef fst].
    - eapply itiny; eauto.
    - eapply Hdiv; [apply ilit2|lia].
    - eapply Hdiv; [eapply lit_next; eauto|lia].
    - eapply Hmul; eauto; [apply ilit2|lia].
    - eapply Hmul; eauto; [eapply lit_next; eauto|lia].
  Qed.
  Lemma prim_integral e t i : prim e t i -> integral_of x e (norm i).
  Proof. intros H. destruct H; apply io_const || apply io_var || apply io_exp || apply io_scaled_var || apply io_scaled_exp. Qed.
  Definition next (k : key) : string * Z := match k with Some (_, k) => (x, k + 1) | None => (x, 1) end.
  Lemma prim_key e t i : prim e t i -> ikey i = next (fst t).
  Proof. intros H. destruct H; reflexivity. Qed.
  Lemma next_inj e t i f u j : prim e t i -> prim f u j -> ikey i = ikey j -> fst t = fst u.
  Proof.
    intros H1 H2 E1. apply (f_equal snd) in E1. destruct H1, H2; cbn in *; first [reflexivity | exfalso; lia | repeat f_equal; lia].
  Qed.

  Definition fst3 (p : E * monomial * item) : E := fst (fst p).
  Definition key3 (p : E * monomial * item) : key := fst (snd (fst p)).
  Definition Prim (p : E * monomial * item) : Prop := prim (fst3 p) (snd (fst p)) (snd p).
  Lemma prim_nodup ps : Forall Prim ps -> NoDup (map key3 ps) -> NoDup (ikeys (map snd ps)).
  Proof.
    intros H D. induction H as [|p ps Hp H IH]; cbn; [constructor|]. inversion D as [|? ? D1 D2]; subst. constructor; [|auto].
    intros K. apply D1. apply in_map_iff in K. destruct K as (i & K1 & K2). apply in_map_iff in K2. destruct K2 as (q & <- & Hq).
    apply in_map_iff. exists q. split; [|exact Hq]. rewrite Forall_forall in H. specialize (H q Hq).
    symmetry. unfold Prim in *. eapply next_inj; eauto.
  Qed.

  (** *** Single terms *)
  Notation C_ := (EVar "C" : E).
  Definition Ci : item := (n1, EVar "C", ("C", 1)).
  Lemma Ci_wf : wf Ci. Proof. constructor. Qed.
  Lemma Ci_big : big Ci. Proof. unfold big. cbn. eapply itiny; [apply ilit1|lia]. Qed.

  Lemma add_C f f' i : yields false f f' -> gterm lit f' i -> big i -> fst (ikey i) = x -> yields false (EAdd f C_) (EAdd (norm i) C_).
  Proof.
    intros Yf Gf B K. apply (yields_add_distinct lit ok IL false f C_ f' C_ [i] [Ci]); auto.
    - now exists 1%nat.
    - now constructor.
    - constructor. apply gt_one. constructor.
    - cbn. constructor; [|constructor; [auto|constructor]]. intros [K1|[]]. apply Hx. rewrite <- K. cbn in K1. now rewrite <- K1.
    - repeat constructor; auto. apply Ci_big.
    - cbn -[norm]. unfold Ci. rewrite (norm_C lit ok IL). reflexivity.
  Qed.

  Definition integrates (e : E) (tr : list defect) (r : E) : Prop := exists n, integ n e (EVar x) = (tr, Ok (Some r)).
  Lemma integ_ge (e : E) n m tr r : integ n e (EVar x) = (tr, Ok (Some r)) -> (n <= m)%nat -> integ m e (EVar x) = (tr, Ok (Some r)).
  Proof. intros H L. destruct (integ_mono n m e (EVar x) L) as [E1|E1]; [rewrite H in E1; discriminate|congruence]. Qed.

  Lemma integ_S n (e v : E) : integ (S n) e v = integ_step (simp n false) (differentiate_with (diff n false)) (integ n) e v.
  Proof. reflexivity. Qed.

  Lemma int_const c z : lit c z -> z <> 0 -> integrates (EReal c) [] (EAdd (norm (c, EVar x, (x, 1))) C_).
  Proof.
    intros Hc Hz.
    assert (Y : yields false (EAdd (EMul (EReal c) (EVar x)) C_) (EAdd (norm (c, EVar x, (x, 1))) C_)).
    { destruct (Z.eq_dec z 1) as [->|Z1].
      - replace (norm (c, EVar x, (x, 1))) with (norm (n1, EVar x, (x, 1))).
        + apply (add_C _ (EVar x)); [|apply gt_one; constructor|unfold big; cbn; eapply itiny; [apply ilit1|lia]|reflexivity].
          exists 3%nat. rewrite (simp_scaled lit ok IL false false 0 c 1 (EVar x) x 1 _ Hc (pw_var _ _) (ml_pre _ _ _ _)). reflexivity.
        + rewrite (norm_C lit ok IL). unfold norm. cbn [coef base fst snd]. now rewrite (il_eqb _ _ _ IL c n1 1 1 Hc ilit1).
      - apply (add_C _ (EMul (EReal c) (EVar x))); [|apply gt_pre; constructor|unfold big; cbn; eapply itiny; eauto|reflexivity].
        exists 3%nat. eapply (simp_pre lit ok IL false 0); [constructor|eapply itiny; eauto|eapply ieqb; eauto using ilit1]. }
    destruct Y as (n & Y). exists (S n). rewrite integ_S. cbn [integ_step]. unfold int_real.
    rewrite (ieqb c z n0 0 Hc ilit0 Hz). unfold Calculus.C_. rewrite Y. reflexivity.
  Qed.

  Lemma yields_pow a k : lit a k -> 2 <= k <= top ->
    yields false (EAdd (EDiv (EExp (EVar x) (EReal a)) (EReal a)) C_) (EAdd (norm (n_div n1 a, EExp (EVar x) (EReal a), (x, k))) C_).
  Proof.
    intros Ha Hk. apply (add_C _ (EMul (EExp (EVar x) (EReal a)) (EReal (n_div n1 a)))).
    - exists 3%nat. apply (simp_div lit ok IL (fun k => k <= top)) with (k := k); auto; try lia.
      intros b j Hb J1 J2. apply (Hdiv b j); auto.
    - apply gt_post. constructor; auto; lia.
    - unfold big. cbn. eapply Hdiv; eauto.
    - reflexivity.
  Qed.
  Lemma int_variable : 2 <= top -> integrates (EVar x) [] (EAdd (norm (n_div n1 n2, EExp (EVar x) (EReal n2), (x, 2))) C_).
  Proof.
    intros Ht. destruct (yields_pow n2 2 ilit2) as (n & Y); [lia|]. exists (S n). rewrite integ_S. cbn [integ_step]. unfold int_var.
    rewrite String.eqb_refl. change (real 2) with (EReal n2 : E). unfold Calculus.C_. rewrite Y. reflexivity.
  Qed.
  Lemma int_power c k : lit c k -> 2 <= k < top ->
    integrates (EExp (EVar x) (EReal c)) [] (EAdd (norm (n_div n1 (n_add c n1), EExp (EVar x) (EReal (n_add c n1)), (x, k + 1))) C_).
  Proof.
    intros Hc Hk. destruct (yields_pow (n_add c n1) (k + 1) (lit_next c k Hc Hk)) as (n & Y); [lia|].
    exists (S (S (S n))). rewrite integ_S. cbn [integ_step]. unfold int_exp.
    rewrite (simp_power lit ok IL false n _ x k) by (constructor; auto; lia). cbn [m_try]. rewrite bind_ok.
    unfold int_exp_pow. cbn [rcast]. cbn -[Calculus.simp n1 nm1]. rewrite String.eqb_refl, (ieqb c k nm1 (-1) Hc ilitm) by lia.
    unfold Calculus.C_. rewrite (yields_ge _ _ _ n (S (S n)) Y) by lia. reflexivity.
  Qed.

  Lemma int_scaled d z p k q P j : lit d z -> z <> 0 -> z <> 1 -> power p x k -> power P x j ->
    n_eqb q n1 = false -> tiny q = false -> tiny (n_mul d q) = false ->
    integrates p [] (EAdd (norm (q, P, (x, j))) C_) ->
    integrates (EMul (EReal d) p) [] (EAdd (norm (n_mul d q, P, (x, j))) C_).
  Proof.
    intros Hd Z0 Z1 Hp HP Hq Tq Tm (m & Hm).
    assert (Td := itiny d z Hd Z0). assert (Nd := ieqb d z n1 1 Hd ilit1 Z1).
    assert (Y : yields false (EAdd (EMul (EReal d) (EMul (EReal q) P)) C_) (EAdd (norm (n_mul d q, P, (x, j))) C_)).
    { apply (add_C _ (EMul (EReal (n_mul d q)) P)); [|now apply gt_pre|exact Tm|reflexivity].
      exists 4%nat. eapply (simp_pre_pre lit ok IL false 0); eauto. }
    destruct Y as (n & Y). exists (S (S (S (S (max n m))))). rewrite integ_S. cbn [integ_step is_var]. unfold int_mul.
    rewrite (simp_pre lit ok IL false _ d p x k Hp Td Nd). cbn [m_try]. rewrite bind_ok.
    replace (as_bin (rcast pMulRE (EMul (EReal d) p))) with (Some (EReal d, p)) by (destruct Hp; reflexivity).
    replace (imag_free (EMul (EReal d) p)) with true by (destruct Hp; reflexivity). cbn [negb flag emit tell].
    unfold norm in Hm. cbn [coef base fst snd] in Hm. rewrite Hq in Hm.
    unfold deref. rewrite (integ_ge _ m (S (S (S (max n m)))) _ _ Hm) by lia. unfold flag, emit, tell. rewrite !bind_ok.
    cbn [as_bin rcast]. cbn -[Calculus.simp Calculus.integ String.eqb n1]. apply String.eqb_neq in Hx. rewrite Hx.
    unfold Calculus.C_. rewrite (yields_ge _ _ _ n (S (S (S (max n m)))) Y) by lia. reflexivity.
  Qed.

  Lemma integ_term e t i : prim e t i -> integrates e [] (EAdd (norm i) C_).
  Proof.
    intros H. destruct H as [c z Hc Hz|Ht|c k Hc Hk|d z Hd Z0 Z1 Ht|d z c k Hd Z0 Z1 Hc Hk].
    - eapply int_const; eauto.
    - now apply int_variable.
    - now apply int_power.
    - destruct (Hdiv n2 2 ilit2) as [D1 D2]; [lia|]. eapply int_scaled; eauto; [constructor|constructor; [apply ilit2|lia|lia]| |now apply int_variable].
      eapply Hmul; eauto using ilit2. lia.
    - pose proof (lit_next c k Hc Hk) as Ln. destruct (Hdiv (n_add c n1) (k + 1) Ln) as [D1 D2]; [lia|].
      eapply int_scaled; eauto; [constructor; eauto; lia|constructor; [exact Ln|lia|lia]| |now apply int_power].
      eapply Hmul; eauto. lia.
  Qed.

  (** *** Sums *)
  Lemma imag_free_tree d l t : tree_over OAdd d l t -> Forall (fun e : E => imag_free e = true) l -> imag_free t = true.
  Proof.
    intros H. induction H as [d e|d l1 l2 a b H1 IH1 H2 IH2]; intros F; [now inversion F|].
    apply Forall_app in F. destruct F as [F1 F2]. cbn. now rewrite IH1, IH2.
  Qed.
  Lemma imag_free_prim e t i : prim e t i -> imag_free e = true.
  Proof. intros H. destruct H; reflexivity. Qed.

  (* what Add::Integrate takes from the integral of an operand *)
  Lemma first_part (kept : list item) : kept <> [] -> Forall wf kept ->
    exists f c, tree OAdd (map norm kept ++ [C_]) = Some (EAdd f c) /\
      tree OAdd (map norm (firstn (2 ^ Nat.log2 (length kept)) kept)) = Some f /\
      ((2 ^ Nat.log2 (length kept))%nat = length kept -> c = C_).
  Proof.
    intros Hn Hw. set (h := (2 ^ Nat.log2 (length kept))%nat). assert (L : (1 <= length kept)%nat) by (destruct kept; [congruence|cbn; lia]).
    pose proof (Nat.log2_spec (length kept) L) as [L1 L2]. fold h in L1. rewrite Nat.pow_succ_r' in L2. fold h in L2.
    destruct (tree_split OAdd (Nat.log2 (length kept)) (map norm (firstn h kept)) (map norm (skipn h kept) ++ [C_])) as (f & c & T1 & T2 & T3).
    - rewrite map_length, firstn_length. fold h. lia.
    - rewrite app_length, map_length, skipn_length. fold h. cbn. lia.
    - exists f, c. rewrite app_assoc, <- map_app, firstn_skipn in T3. split; [exact T3|]. split; [exact T1|].
      intros E1. rewrite skipn_all2 in T2 by lia. cbn in T2. congruence.
  Qed.

  Lemma integ_sum : forall n ps t, length ps = n -> tree OAdd (map fst3 ps) = Some t -> Forall Prim ps -> NoDup (map key3 ps) ->
    ok (weight (map (fun p => snd (fst p)) ps)) ->
    exists tr r kept lost, integrates t tr r /\ tree OAdd (map norm kept ++ [C_]) = Some r /\
      Permutation (kept ++ lost) (map snd ps) /\ length kept = two_digits (length ps) /\ (lost = [] -> tr = []) /\
      ((2 <= length ps)%nat -> forall a0 b0, yields false (EAdd a0 b0) t -> integrates (EAdd a0 b0) tr r).
  Proof.
    intros n. induction n as [n IH] using lt_wf_ind. intros ps t Hn Ht HP Hd Hw.
    destruct ps as [|p ps]; [discriminate|]. destruct ps as [|p' ps].
    - inversion HP as [|? ? H1 _]; subst. injection Ht as <-. pose proof (integ_term _ _ _ H1) as I.
      exists [], (EAdd (norm (snd p)) C_), [snd p], []. repeat split; auto. cbn. lia.
    - set (ps0 := p :: p' :: ps) in *. assert (Ln : (2 <= length ps0)%nat) by (cbn; lia). clearbody ps0. clear p p' ps.
      destruct (split_size (length ps0) Ln) as (j & Lj & _). set (h := (2 ^ j)%nat) in *. assert (h0 : (1 <= h)%nat) by (pose proof (Nat.pow_nonzero 2 j); lia).
      set (p1 := firstn h ps0). set (p2 := skipn h ps0). assert (Eps : ps0 = p1 ++ p2) by (symmetry; apply firstn_skipn).
      assert (L1 : length p1 = h) by (unfold p1; rewrite firstn_length; lia).
      assert (L2 : length p2 = (length ps0 - h)%nat) by (unfold p2; now rewrite skipn_length).
      clearbody p1 p2. subst ps0. rewrite app_length in *.
      destruct (tree_split OAdd j (map fst3 p1) (map fst3 p2)) as (a & b & Ta & Tb & Tab); [now rewrite map_length|rewrite map_length; fold h; lia|].
      rewrite map_app in Ht. rewrite Tab in Ht. injection Ht as <-.
      (* the sum is already simplified *)
      set (tl := map (fun p => snd (fst p)) (p1 ++ p2)) in *.
      assert (Fn : Forall2 (neat lit) (map fst3 (p1 ++ p2)) tl).
      { unfold tl. clear - HP. induction HP as [|q qs Hq _ IHq]; constructor; auto. eapply prim_neat; exact Hq. }
      assert (Sab : yields false (EAdd a b) (EAdd a b)).
      { assert (K : keys tl = map key3 (p1 ++ p2)) by (unfold tl, keys; now rewrite map_map).
        rewrite <- map_app in Tab. pose proof (tree_tree_over OAdd _ _ Tab) as TO.
        destruct (combined_yields lit ok IL false false _ _ _ tl TO Fn) as (r & Yr & Cr); [now rewrite K|exact Hw|].
        rewrite <- (tree_build OAdd) in Tab by (rewrite map_length, app_length; lia).
        destruct (map fst3 (p1 ++ p2)) as [|u [|v w]]; try discriminate Tab. change (build OAdd (u :: v :: w) = Some r) in Cr. congruence. }
      assert (If : imag_free (EAdd a b) = true).
      { rewrite <- map_app in Tab. eapply imag_free_tree; [eapply tree_tree_over; exact Tab|]. clear - HP.
        induction HP as [|q qs Hq _ IHq]; constructor; auto. eapply imag_free_prim; exact Hq. }
      assert (Wt : weight tl = weight (map (fun p => snd (fst p)) p1) + weight (map (fun p => snd (fst p)) p2)).
      { unfold tl. now rewrite map_app, weight_app. }
      pose proof (weight_nonneg (map (fun p => snd (fst p)) p1)) as W1. pose proof (weight_nonneg (map (fun p => snd (fst p)) p2)) as W2.
      assert (HP' := HP). apply Forall_app in HP'. destruct HP' as [HP1 HP2]. assert (Hd' := Hd). rewrite map_app in Hd'. apply nodup_app in Hd'.
      destruct Hd' as (D1 & D2 & _).
      destruct (IH (length p2) ltac:(lia) p2 b eq_refl Tb HP2 D2) as (tr2 & r2 & k2 & x2 & I2 & R2 & P2 & N2 & E2 & _);
        [eapply (il_ok_le _ _ _ IL); [exact Hw|lia]|].
      destruct (IH (length p1) ltac:(lia) p1 a eq_refl Ta HP1 D1) as (tr1 & r1 & k1 & x1 & I1 & R1 & P1 & N1 & E1 & _);
        [eapply (il_ok_le _ _ _ IL); [exact Hw|lia]|].
      clear IH Fn. clearbody tl.
      (* all integrals *)
      assert (Dk : NoDup (ikeys (map snd (p1 ++ p2)))) by now apply prim_nodup.
      assert (Wk : Forall wf (map snd (p1 ++ p2)) /\ Forall big (map snd (p1 ++ p2)) /\ Forall (fun i => fst (ikey i) = x) (map snd (p1 ++ p2))).
      { clear - HP IL Hok Hdiv Hmul. induction HP as [|q qs Hq _ IHq]; [repeat split; constructor|]. destruct IHq as (A1 & A2 & A3).
        repeat split; constructor; auto; [eapply prim_wf; exact Hq|eapply prim_big; exact Hq|].
        rewrite (prim_key _ _ _ Hq). unfold next. destruct (fst (snd (fst q))) as [[? ?]|]; reflexivity. }
      destruct Wk as (Wk & Bk & Xk).
      assert (k1n : k1 <> []) by (intros ->; cbn in N1; rewrite L1 in N1; unfold h in N1; rewrite two_digits_pow in N1; lia).
      assert (k2n : k2 <> []).
      { intros ->. cbn in N2. pose proof (log2_two_digits (length p2) ltac:(lia)) as K. rewrite <- N2 in K.
        destruct (Nat.eq_dec (length p2) 1) as [E0|E0]; [rewrite E0 in N2; discriminate|]. pose proof (two_digits_two (length p2) ltac:(lia)). lia. }
      assert (PP : Permutation ((k2 ++ x2) ++ (k1 ++ x1)) (map snd (p1 ++ p2))).
      { rewrite map_app, P1, P2. apply Permutation_app_comm. }
      assert (In1 : forall i, In i k1 -> In i (map snd (p1 ++ p2))) by (intros i Hi; eapply Permutation_in; [exact PP|]; rewrite !in_app_iff; auto).
      assert (In2 : forall i, In i k2 -> In i (map snd (p1 ++ p2))) by (intros i Hi; eapply Permutation_in; [exact PP|]; rewrite !in_app_iff; auto).
      destruct (first_part k2 k2n) as (f2 & c2 & R2' & F2 & C2).
      { rewrite Forall_forall in *. auto. }
      destruct (first_part k1 k1n) as (f1 & c1 & R1' & F1 & C1).
      { rewrite Forall_forall in *. auto. }
      rewrite R2' in R2. injection R2 as <-. rewrite R1' in R1. injection R1 as <-.
      assert (Lk1 : (2 ^ Nat.log2 (length k1))%nat = h).
      { rewrite N1, L1. unfold h. now rewrite two_digits_pow, Nat.log2_pow2 by lia. }
      assert (Lk2 : (2 ^ Nat.log2 (length k2))%nat = (2 ^ Nat.log2 (length p2))%nat) by (rewrite N2, log2_two_digits by lia; reflexivity).
      assert (A2 : (2 ^ Nat.log2 (length k2) <= length k2)%nat) by (apply Nat.log2_spec; destruct k2; [congruence|cbn; lia]).
      assert (A1 : (length k1 = h)%nat) by (rewrite N1, L1; apply two_digits_pow).
      set (m := (2 ^ Nat.log2 (length k2))%nat) in *. assert (m0 : (1 <= m)%nat) by (pose proof (Nat.pow_nonzero 2 (Nat.log2 (length k2))); lia).
      rewrite Lk1 in F1, C1. rewrite firstn_all2 in F1 by lia. specialize (C1 (eq_sym A1)). subst c1.
      assert (Q : Permutation ((firstn m k2 ++ k1) ++ (skipn m k2 ++ x2 ++ x1)) (map snd (p1 ++ p2))).
      { rewrite <- PP. rewrite <- (firstn_skipn m k2) at 3. rewrite <- !app_assoc. apply Permutation_app_head.
        rewrite !app_assoc. apply Permutation_app_tail. rewrite <- app_assoc. apply Permutation_app_comm. }
      assert (Wg : Forall wf (firstn m k2 ++ k1) /\ Forall big (firstn m k2 ++ k1) /\ Forall (fun i => fst (ikey i) = x) (firstn m k2 ++ k1) /\
                   NoDup (ikeys (firstn m k2 ++ k1))).
      { apply Permutation_sym in Q. apply (Permutation_Forall Q) in Wk. apply (Permutation_Forall Q) in Bk. apply (Permutation_Forall Q) in Xk.
        apply (Permutation_NoDup (Permutation_map ikey Q)) in Dk. rewrite map_app in Dk. apply nodup_app in Dk.
        apply Forall_app in Wk, Bk, Xk. destruct Wk, Bk, Xk, Dk. auto. }
      destruct Wg as (Wg & Bg & Xg & Dg).
      destruct (yields_trees lit ok IL false (firstn m k2) k1 f2 f1) as (s & Ys & Ts); auto.
      { destruct k2; [congruence|destruct m; [lia|discriminate]]. }
      (* and with the constant *)
      set (g := firstn m k2 ++ k1) in *.
      assert (Gn : g <> []) by (unfold g; destruct k1; [congruence|]; destruct (firstn m k2); discriminate).
      destruct (tree_some OAdd (map norm g ++ [C_])) as (r & Tr); [destruct g; [congruence|discriminate]|].
      assert (YC : yields false (EAdd (EAdd f2 f1) C_) r).
      { destruct (norms lit ok IL g Wg Bg) as (g' & G1 & G2 & G3 & G4).
        apply (yields_add_distinct lit ok IL false (EAdd f2 f1) C_ s C_ g' [Ci]); auto.
        - now exists 1%nat.
        - eapply gterms_tree; [eapply tree_tree_over; exact Ts|exact G1].
        - constructor. apply gt_one. constructor.
        - unfold ikeys in *. rewrite map_app, G2. apply (Permutation_NoDup (Permutation_cons_append _ _)). constructor; [|exact Dg].
          intros K. apply in_map_iff in K. destruct K as (i & K1 & K2). rewrite Forall_forall in Xg. specialize (Xg i K2). rewrite K1 in Xg. cbn in Xg. congruence.
        - apply Forall_app. split; auto. repeat constructor. apply Ci_big.
        - rewrite map_app, G3. cbn [map]. unfold Ci. rewrite (norm_C lit ok IL), tree_build; [exact Tr|]. rewrite app_length, map_length. cbn. destruct g; [congruence|cbn; lia]. }
      destruct YC as (n2' & YC), I1 as (n3 & I1), I2 as (n4 & I2).
      assert (Run : forall a0 b0, yields false (EAdd a0 b0) (EAdd a b) ->
                integrates (EAdd a0 b0) (tr2 ++ tr1 ++ (if const_for (EVar x) c2 then [] else [IntegralRule])) r).
      { intros a0 b0 (n1' & S0).
        exists (S (n1' + n2' + n3 + n4)). rewrite integ_S. cbn [integ_step is_var]. unfold int_add.
        rewrite (yields_ge _ _ _ n1' (n1' + n2' + n3 + n4) S0) by lia. cbn [m_try]. rewrite bind_ok.
        change (as_bin (rcast pAdd (EAdd a b))) with (Some (a, b)). cbv beta iota. rewrite If. unfold deref, flag, emit, tell. cbn [negb]. rewrite bind_ok.
        rewrite (integ_ge _ n4 _ _ _ I2) by lia. rewrite (integ_ge _ n3 _ _ _ I1) by lia.
        cbn [bind ret fst snd app].
        change (as_bin (rcast pAdd (EAdd f2 c2))) with (Some (f2, c2)). change (as_bin (rcast pAdd (EAdd f1 C_))) with (Some (f1, C_ : E)). cbv beta iota.
        unfold Calculus.C_. rewrite (yields_ge _ _ _ n2' (n1' + n2' + n3 + n4) YC) by lia.
        assert (KC : const_for (EVar x) C_ = true) by (cbn; now rewrite (proj2 (String.eqb_neq _ _) Hx)). rewrite KC, andb_true_r.
        destruct (const_for (EVar x) c2); cbn; rewrite ?app_nil_r; reflexivity. }
      exists (tr2 ++ tr1 ++ (if const_for (EVar x) c2 then [] else [IntegralRule])), r, g, (skipn m k2 ++ x2 ++ x1).
      split; [|split; [exact Tr|split; [exact Q|split; [|split]]]].
      + now apply Run.
      + unfold g. rewrite app_length, firstn_length, Nat.min_l, A1 by lia. rewrite L1. fold h in Lj |- *. unfold h. rewrite two_digits_split by (fold h; lia). rewrite <- Lk2. unfold h. lia.
      + intros E0. apply app_eq_nil in E0. destruct E0 as (S1 & E0). apply app_eq_nil in E0. destruct E0 as [-> ->].
        rewrite E1, E2 by reflexivity. rewrite C2.
        * cbn. now rewrite (proj2 (String.eqb_neq _ _) Hx).
        * apply (f_equal (@length item)) in S1. rewrite skipn_length in S1. cbn in S1. lia.
      + intros _. exact Run.
  Qed.

  (** *** Polynomials *)
  Lemma total_in k ts : total k ts <> 0 -> In k (keys ts).
  Proof.
    induction ts as [|t ts IH]; cbn [total fold_right keys map]; [lia|]. fold (total k ts) (keys ts). intros H.
    destruct (key_eqb k (fst t)) eqn:E1; [left; apply key_eqb_eq in E1; now symmetry|right; apply IH; lia].
  Qed.
  Lemma total_absent k ts : ~ In k (keys ts) -> total k ts = 0.
  Proof. intros H. destruct (Z.eq_dec (total k ts) 0); auto. destruct H. now apply total_in. Qed.
  Lemma neat_total l tl : Forall2 (neat lit) l tl -> NoDup (keys tl) -> forall t, In t tl -> total (fst t) tl = snd t /\ snd t <> 0.
  Proof.
    intros F. induction F as [|e u l tl He F IH]; intros D t Ht; [destruct Ht|]. inversion D as [|? ? D1 D2]; subst.
    cbn [total fold_right]. fold (total (fst t) tl). destruct Ht as [<-|Ht].
    - rewrite (proj2 (key_eqb_eq _ _) eq_refl), (total_absent _ _ D1). split; [lia|]. destruct He; cbn; lia.
    - destruct (IH D2 t Ht) as [-> H]. split; [|exact H].
      assert (K : key_eqb (fst t) (fst u) = false) by (apply key_eqb_neq; intros K; apply D1; rewrite <- K; now apply in_map).
      rewrite K. lia.
  Qed.
  Lemma combined_count l ts : combined lit l ts -> length l = terms_left ts.
  Proof.
    intros (tl & F & D & T). transitivity (length (keys tl)); [unfold keys; rewrite map_length; exact (Forall2_length _ _ _ F)|]. unfold terms_left.
    apply Permutation_length. apply NoDup_Permutation; [exact D|apply NoDup_filter, NoDup_nodup|]. intros k. rewrite filter_In, nodup_In. split.
    - intros Hk. assert (total k tl <> 0). { apply in_map_iff in Hk. destruct Hk as (t & <- & Ht). destruct (neat_total l tl F D t Ht). lia. }
      rewrite T in H. split; [now apply total_in|]. apply Z.eqb_neq in H. now rewrite H.
    - intros [_ H]. apply total_in. rewrite T. destruct (Z.eqb_spec (total k ts) 0); [discriminate|auto].
  Qed.

  Theorem integ_poly post e ts : poly lit ok false post e ts -> sum_or_difference e -> ok (weight ts) -> two_left ts -> in_one_variable x top ts ->
    exists ps tr r kept lost, combined lit (map fst3 ps) ts /\ Forall Prim ps /\ NoDup (map key3 ps) /\
      (forall k, total k (map (fun p => snd (fst p)) ps) = total k ts) /\
      integrates e tr r /\ tree OAdd (map norm kept ++ [C_]) = Some r /\
      Permutation (kept ++ lost) (map snd ps) /\ length kept = two_digits (length ps) /\ (lost = [] -> tr = []).
  Proof.
    intros He Hs Hw H2 Hv. destruct (poly_yields lit ok IL false post e ts He Hw) as (s & Ye & (tl & (_ & St) & Rt)).
    destruct St as (l & Hb & Fl & Dl); [now apply (refines_two_left _ _ Rt)|].
    destruct Rt as (Tt & _ & Wt & _). assert (Hwl : ok (weight tl)) by (eapply (il_ok_le _ _ _ IL); [exact Hw|]; pose proof (weight_nonneg tl); lia).
    assert (Ys : yields false s s).
    { destruct (combined_yields lit ok IL post false _ l s tl (build_balanced _ _ _ Hb) Fl Dl Hwl) as (r' & Y' & C').
      destruct l as [|u [|v l]]; try discriminate Hb. change (build OAdd (u :: v :: l) = Some r') in C'. congruence. }
    assert (Ts : tree OAdd l = Some s) by (destruct l as [|u [|v l]]; try discriminate Hb; exact Hb).
    assert (P : exists ps, map fst3 ps = l /\ map (fun p => snd (fst p)) ps = tl /\ Forall Prim ps).
    { assert (V : forall t, In t tl -> forall y k, fst t = Some (y, k) -> y = x /\ 1 <= k < top).
      { intros t Ht y k E1. apply Hv. apply total_in. rewrite <- E1, <- Tt. destruct (neat_total l tl Fl Dl t Ht). lia. }
      clear - Fl V IL. induction Fl as [|u t l tl Hu Fl IH]; [exists []; repeat split; constructor|].
      destruct IH as (ps & E1 & E2 & F); [intros; eapply V; [right|]; eauto|].
      destruct (neat_prim u t Hu) as (i & Hi); [intros; eapply V; [left; reflexivity|]; auto|].
      exists ((u, t, i) :: ps). cbn. rewrite E1, E2. repeat split. constructor; auto. }
    destruct P as (ps & <- & <- & HP).
    assert (Dk : NoDup (map key3 ps)) by (unfold keys in Dl; now rewrite map_map in Dl).
    destruct (integ_sum _ ps s eq_refl Ts HP Dk Hwl) as (tr & r & kept & lost & I & R & Q & L & T & W).
    exists ps, tr, r, kept, lost. split; [exists (map (fun p => snd (fst p)) ps); repeat split; auto|]. repeat split; auto.
    assert (A : exists m l, s = EAdd m l).
    { pose proof (build_balanced _ _ _ Hb) as TO. destruct TO as [d u|d l1 l2 a b _ _]; [|eauto]. cbn in Hb. discriminate. }
    destruct A as (m & l & ->).
    assert (L2 : (2 <= length ps)%nat) by (destruct ps as [|? [|? ?]]; [discriminate Hb|discriminate Hb|cbn; lia]).
    destruct Hs as (a & b & [-> | ->]); [now apply W|]. destruct Ye as (n & Ye), I as (k & I). exists (S (n + k)). rewrite integ_S.
    cbn [integ_step is_var]. unfold int_sub. rewrite (yields_ge _ _ _ n (n + k) Ye) by lia. cbn [m_try]. rewrite bind_ok.
    change (as_bin (rcast pSub (EAdd m l))) with (@None (E * E)). cbv beta iota. apply (integ_ge _ k); [exact I|lia].
  Qed.
End Integrals.
