(** Property C73: Integrate on polynomials in one variable with integer
    coefficients. *)
From Coq Require Import String Bool Arith ZArith QArith Reals Lra Lia Permutation Qreals.
From Flocq Require Import Core BinarySingleNaN.
From Coquelicot Require Import Coquelicot.
From Coq Require Import List.
From Verif Require Import Base Num Expr Ghost Simplify Calculus Spec SpecPoly SpecPolyInt QNum DoubleNum TreeProofs PowProofs SemProofs MonadProofs FuelProofs PolyProofs PolySem PolyDiffSem SumProofs PolyInt PolyIntSem
  PropertiesSimplify PropertiesPoly PropertiesLinearPoly PropertiesIntegral.
Import ListNotations.
Open Scope string_scope.
Open Scope Z_scope.
Open Scope list_scope.

(** Integrate returns [r], if given enough fuel. *)
Definition integral_is {num} {N : NumOps num} (e : expr num) (x : string) (r : expr num) : Prop :=
  exists n0, forall n, (n0 <= n)%nat -> snd (integ n e (EVar x)) = Ok (Some r).

Lemma integrates_is {num} {N : NumOps num} x (e : expr num) tr r : integrates x e tr r -> integral_is e x r.
Proof. intros (n & H). exists n. intros m L. now rewrite (integ_ge x e n m tr r H L). Qed.
Lemma integral_is_fun {num} {N : NumOps num} (e : expr num) x r s : integral_is e x r -> integral_is e x s -> r = s.
Proof.
  intros (n & H) (m & K). specialize (H (n + m)%nat ltac:(lia)). specialize (K (n + m)%nat ltac:(lia)). congruence.
Qed.
Lemma integral_is_run {num} {N : NumOps num} n (e : expr num) x r : snd (integ n e (EVar x)) = Ok (Some r) -> integral_is e x r.
Proof. intros H. exists n. intros m L. destruct (integ_mono n m e (EVar x) L) as [K|K]; congruence. Qed.

(** The full property, for exact numbers.  EPSILON, 2^-23, is what limits the
    exponents: terms with smaller coefficients are dropped. *)
Definition C73_statement : Prop :=
  forall (e : expr Q) ts x, polynomial q_int e ts -> in_one_variable x (2 ^ 22) ts -> x <> "C" ->
  exists r, integral_is e x r /\ forall rho, antiderivative_at Q2R x rho e r.

(** ** What is proved about every representation of numbers *)
(** 1/k is neither 1 nor so small that a multiple of it is dropped, 2 <= k <= [top]. *)
Record Reciprocals {num : Type} (N : NumOps num) (lit : num -> Z -> Prop) (top : Z) : Prop := {
  rc_ltb : forall a k, lit a k -> 2 <= k -> n_ltb a n0 = false;
  rc_div : forall a k, lit a k -> 2 <= k <= top -> n_eqb (n_div n1 a) n1 = false /\ tiny (n_div n1 a) = false;
  rc_mul : forall d z a k, lit d z -> z <> 0 -> lit a k -> 2 <= k <= top -> tiny (n_mul d (n_div n1 a)) = false
}.

Lemma prims_integral {num} {N : NumOps num} lit top x (ps : list (expr num * monomial * item)) : Forall (Prim lit top x) ps ->
  List.Forall2 (integral_of x) (map fst3 ps) (map norm (map snd ps)).
Proof. intros H. induction H as [|p ps Hp H IH]; constructor; auto. eapply prim_integral. exact Hp. Qed.

(** Integrate on a sum or difference of such terms gives a balanced sum of
    integrals of its terms and the variable C: of all terms if their number
    is a power of two or the sum of two powers of two, otherwise of as many
    as [two_digits] says. *)
Theorem c73_terms : forall (num : Type) (N : NumOps num) lit ok, IntLits N lit ok ->
  forall top, ok top -> Reciprocals N lit top ->
  forall post (e : expr num) ts x, poly lit ok false post e ts -> sum_or_difference e ->
  ok (weight ts) -> two_left ts -> in_one_variable x top ts -> x <> "C" ->
  exists l li kept lost r,
    combined lit l ts /\ length l = terms_left ts /\ List.Forall2 (integral_of x) l li /\
    Permutation (kept ++ lost) li /\ length kept = two_digits (terms_left ts) /\
    integral_is e x r /\ tree_over OAdd (Nat.log2_up (S (length kept))) (kept ++ [EVar "C"]) r.
Proof.
  intros num N lit ok IL top Hok [R1 R2 R3] post e ts x He Hs Hw H2 Hv Hx.
  destruct (integ_poly lit ok IL top Hok R1 R2 R3 x Hx post e ts He Hs Hw H2 Hv) as (ps & tr & r & kept & lost & C & P & D & T & I & R & Q & L & _).
  exists (map fst3 ps), (map norm (map snd ps)), (map norm kept), (map norm lost), r.
  pose proof (combined_count lit _ _ C) as K. rewrite map_length in K.
  split; [exact C|]. split; [now rewrite map_length|]. split; [eapply prims_integral; eauto|]. split; [rewrite <- map_app; now apply Permutation_map|].
  split; [rewrite map_length; congruence|]. split; [eapply integrates_is; eauto|].
  replace (S (length (map norm kept))) with (length (map norm kept ++ [EVar "C"])) by (rewrite app_length; cbn; lia).
  now apply tree_tree_over.
Qed.
Print Assumptions c73_terms.

(** A term alone: its integral and C. *)
Theorem c73_term : forall (num : Type) (N : NumOps num) lit ok, IntLits N lit ok ->
  forall top, ok top -> Reciprocals N lit top ->
  forall (e : expr num) t x, neat lit e t -> in_one_variable x top [t] -> x <> "C" ->
  exists i, integral_of x e i /\ integral_is e x (EAdd i (EVar "C")).
Proof.
  intros num N lit ok IL top Hok [R1 R2 R3] e t x He Hv Hx.
  destruct (neat_prim lit top x e t He) as (i & Hi); [intros y k E; apply Hv; left; exact E|].
  exists (norm i). split; [eapply prim_integral; eauto|]. eapply integrates_is. eapply integ_term; eauto.
Qed.
Print Assumptions c73_term.

(** ** Exact numbers *)
Theorem c73_exact : forall (num : Type) (N : NumOps num) lit ok, IntLits N lit ok ->
  forall toR, Exact N toR -> (forall c z, lit c z -> toR c = IZR z) ->
  forall top, ok top -> Reciprocals N lit top ->
  forall post (e : expr num) ts x, poly lit ok false post e ts -> sum_or_difference e ->
  ok (weight ts) -> two_left ts -> in_one_variable x top ts -> x <> "C" ->
  exists r, integral_is e x r /\
    ((forall rho, antiderivative_at toR x rho e r) <-> two_powers (terms_left ts)).
Proof.
  intros num N lit ok IL toR EX HR top Hok [R1 R2 R3] post e ts x He Hs Hw H2 Hv Hx.
  destruct (integ_poly lit ok IL top Hok R1 R2 R3 x Hx post e ts He Hs Hw H2 Hv) as (ps & tr & r & kept & lost & C & P & D & T & I & R & Q & L & _).
  exists r. split; [eapply integrates_is; eauto|].
  pose proof (combined_count lit _ _ C) as K. rewrite map_length in K.
  assert (K1 : (1 <= length ps)%nat).
  { destruct ps; [|cbn; lia]. destruct H2 as (k & _ & _ & Z & _). rewrite <- T in Z. cbn in Z. lia. }
  (* the function e *)
  assert (Kok : forall rho ts', (forall p, In (Some p) (keys ts') -> In (Some p) (keys ts)) -> forall p, In (Some p) (keys ts') -> kok rho p).
  { intros rho ts' Hi [y k] Hp. destruct (Hv y k (Hi _ Hp)). split; cbn; [lia|right; lia]. }
  set (tl := map (fun p => snd (fst p)) ps) in *.
  assert (Itl : forall p, In (Some p) (keys tl) -> In (Some p) (keys ts)).
  { intros p Hp. apply total_in. rewrite <- T. destruct C as (tl' & F & D' & T').
    apply in_map_iff in Hp. destruct Hp as (t & E1 & Ht). rewrite <- E1.
    assert (Fn : List.Forall2 (neat lit) (map fst3 ps) tl) by (unfold tl; clear - P; induction P as [|q qs Hq _ IHq]; constructor; auto; eapply prim_neat; exact Hq).
    assert (Dn : NoDup (keys tl)) by (unfold tl, keys; now rewrite map_map). destruct (neat_total lit _ tl Fn Dn t Ht). lia. }
  assert (Fe : forall rho, ev toR e rho (RtoC (total_of (dval toR) (map snd ps) (rho x)))).
  { intros rho. rewrite <- (prims_value lit ok toR IL EX HR x top Hok ps rho P). fold tl.
    rewrite <- csum_rsum by (apply Kok; exact Itl). rewrite (csum_totals rho tl ts T).
    eapply ev_poly_conv; eauto. }
  (* the function r *)
  assert (Wk : Forall (wf lit) (map snd ps) /\ Forall big (map snd ps) /\ Forall (fun i => 1 <= degree i /\ fst (ikey i) = x) (map snd ps)).
  { clear - P IL Hok R2 R3. induction P as [|q qs Hq _ IHq]; [repeat split; constructor|]. destruct IHq as (A1 & A2 & A3).
    repeat split; constructor; auto; [eapply prim_wf; eauto; exact Hq|eapply prim_big; eauto; exact Hq|eapply prim_degree; exact Hq]. }
  assert (Dk := prim_nodup lit top x ps P D). destruct Wk as (Wk & Bk & Xk).
  apply Permutation_sym in Q. apply (Permutation_Forall Q) in Wk, Bk, Xk. apply (Permutation_NoDup (Permutation_map ikey Q)) in Dk.
  rewrite map_app in Dk. apply nodup_app in Dk. destruct Dk as (_ & Dl & _). apply Forall_app in Wk, Bk, Xk.
  destruct Wk as [Wk _], Bk as [_ Bl], Xk as [Xk Xl].
  assert (Fr : forall rho, ev toR r rho (RtoC (total_of (ival toR) kept (rho x) + rho "C"))) by (intros rho; eapply ev_kept; eauto).
  assert (U : forall rho t, upd rho x t x = t) by (intros; unfold upd; now rewrite String.eqb_refl).
  assert (UC : forall rho t, upd rho x t "C" = rho "C") by (intros; unfold upd; destruct (String.eqb_spec "C" x); congruence).
  assert (Ef : forall rho, is_function toR x rho e (fun t => total_of (dval toR) (map snd ps) t)).
  { intros rho. apply is_function_now. intros t. specialize (Fe (upd rho x t)). now rewrite U in Fe. }
  assert (Er : forall rho, is_function toR x rho r (fun t => total_of (ival toR) kept t + rho "C")%R).
  { intros rho. apply is_function_now. intros t. specialize (Fr (upd rho x t)). now rewrite U, UC in Fr. }
  assert (Dr : forall rho, is_derive (fun t => total_of (ival toR) kept t + rho "C")%R (rho x) (total_of (dval toR) kept (rho x))).
  { intros rho. evar_last; [apply (is_derive_plus (total_of (ival toR) kept) (fun _ => rho "C"))|].
    - apply derive_total. eapply Forall_impl; [|exact Xk]. intros i Hi. apply Hi.
    - exact (is_derive_const (rho "C") (rho x)).
    - unfold plus, zero; cbn. ring. }
  assert (Sum : forall t, total_of (dval toR) (map snd ps) t = (total_of (dval toR) kept t + total_of (dval toR) lost t)%R).
  { intros t. rewrite (total_of_perm _ _ _ t Q). apply total_of_app. }
  assert (Len : (length kept + length lost = length ps)%nat) by (apply Permutation_length in Q; now rewrite map_length, app_length in Q).
  rewrite <- K, <- two_digits_eq, <- L by exact K1. split.
  - intros A. enough (Z : lost = []) by (rewrite Z in Len; cbn in Len; lia).
    apply (lost_value lit ok toR IL EX HR x lost Bl Xl Dl). intros t.
    destruct (Req_dec (total_of (dval toR) lost t) 0) as [Z|Z]; [exact Z|]. exfalso.
    specialize (A (fun _ => t)). refine (not_antiderivative toR x (fun _ => t) e r _ _ _ (Ef _) (Er _) (Dr _) _ A).
    rewrite Sum. lra.
  - intros Z rho f Hf. exists (fun t => total_of (ival toR) kept t + rho "C")%R. split; [apply Er|].
    assert (E0 : lost = []) by (destruct lost; [reflexivity|cbn in Len; lia]).
    pose proof (locally_singleton _ _ (is_function_unique toR x rho e f _ Hf (Ef rho))) as V. cbv beta in V. rewrite V, Sum, E0. cbn [total_of fold_right].
    rewrite Rplus_0_r. apply Dr.
Qed.
Print Assumptions c73_exact.

Lemma q_reciprocals : Reciprocals Q_ops q_int (2 ^ 22).
Proof.
  assert (V : forall a k, q_int a k -> Q2R a = IZR k) by (intros a k H; unfold q_int in H; apply Qeq_eqR in H; rewrite H; apply Q2R_Z).
  assert (N1 : Q2R n1 = 1%R) by apply (ex_of_Z _ _ Q_exact). assert (N0 : Q2R n0 = 0%R) by apply (ex_of_Z _ _ Q_exact).
  assert (Eps : Q2R n_eps = (/ 2 ^ 23)%R) by (change (1 * / 8388608 = / 2 ^ 23)%R; rewrite Rmult_1_l; f_equal; simpl; lra).
  assert (Dv : forall a k, q_int a k -> 2 <= k <= 2 ^ 22 -> (/ 2 ^ 22 <= Q2R (n_div n1 a) <= / 2)%R).
  { intros a k Ha Hk. rewrite (ex_div _ _ Q_exact) by (rewrite (V a k Ha); apply not_0_IZR; lia). rewrite (V a k Ha), N1.
    destruct Hk as [K1 K2]. apply IZR_le in K1, K2. unfold Rdiv. rewrite Rmult_1_l.
    assert (P : (2 ^ 22 = IZR (2 ^ 22))%R) by (rewrite pow_IZR; reflexivity). rewrite P. split; apply Rinv_le_contravar; lra. }
  assert (Tn : forall a : Q, (/ 2 ^ 22 <= Rabs (Q2R a))%R -> tiny a = false).
  { intros a H. unfold tiny. destruct (n_leb (n_abs a) n_eps) eqn:E; [|reflexivity]. apply (ex_leb _ _ Q_exact) in E.
    rewrite (ex_abs _ _ Q_exact), Eps in E. assert (/ 2 ^ 23 < / 2 ^ 22)%R; [|lra].
    apply Rinv_lt_contravar; [apply Rmult_lt_0_compat; apply pow_lt; lra|]. apply Rlt_pow; [lra|lia]. }
  constructor.
  - intros a k Ha Hk. destruct (n_ltb a n0) eqn:E; [|reflexivity]. apply (ex_ltb _ _ Q_exact) in E.
    rewrite (V a k Ha), N0 in E. apply lt_IZR in E. lia.
  - intros a k Ha Hk. pose proof (Dv a k Ha Hk) as B. split.
    + destruct (n_eqb (n_div n1 a) n1) eqn:E; [|reflexivity]. apply (ex_eqb _ _ Q_exact) in E.
      lra.
    + apply Tn. rewrite Rabs_pos_eq; [apply B|]. assert (0 < / 2 ^ 22)%R by (apply Rinv_0_lt_compat, pow_lt; lra). lra.
  - intros d z a k Hd Hz Ha Hk. pose proof (Dv a k Ha Hk) as B. apply Tn. rewrite (ex_mul _ _ Q_exact), Rabs_mult, (V d z Hd).
    assert (P : (0 < / 2 ^ 22)%R) by (apply Rinv_0_lt_compat, pow_lt; lra). rewrite (Rabs_pos_eq (Q2R (n_div n1 a))) by lra.
    assert (Z1 : (1 <= Rabs (IZR z))%R) by (rewrite <- abs_IZR; apply IZR_le; lia).
    apply Rle_trans with (1 * Q2R (n_div n1 a))%R; [lra|]. apply Rmult_le_compat_r; lra.
Qed.

(** The integral of a polynomial is an antiderivative exactly if the number of
    its terms is a power of two or the sum of two powers of two. *)
Theorem c73_antiderivative_partial : forall post (e : expr Q) ts x, poly q_int any false post e ts -> sum_or_difference e ->
  two_left ts -> in_one_variable x (2 ^ 22) ts -> x <> "C" ->
  exists r, integral_is e x r /\
    ((forall rho, antiderivative_at Q2R x rho e r) <-> two_powers (terms_left ts)).
Proof.
  intros post e ts x He Hs H2 Hv Hx.
  refine (c73_exact Q Q_ops q_int any q_ints Q2R Q_exact _ (2 ^ 22) I q_reciprocals post e ts x He Hs I H2 Hv Hx).
  intros c z H. unfold q_int in H. apply Qeq_eqR in H. rewrite H. apply Q2R_Z.
Qed.
Print Assumptions c73_antiderivative_partial.

(** ** Doubles: 1/k and its products with coefficients are rounded *)
Section Doubles.
  Variables (pw : double -> double -> double) (lg : double -> double).
  Variables (pwx : double -> double -> bool) (lgx : double -> bool).
  Let N := double_ops pw lg pwx lgx.
  Notation rnd := (round radix2 (SpecFloat.fexp 53 1024) (round_mode mode_NE)).

  Notation dmul := (Bmult (prec_gt_0_ := d_prec) (prec_lt_emax_ := d_max) mode_NE).
  Notation quot a := (Bdiv (prec_gt_0_ := d_prec) (prec_lt_emax_ := d_max) mode_NE (d_of 1 0) a).

  Lemma rnd_le a b : (a <= b)%R -> (rnd a <= rnd b)%R.
  Proof. apply round_le; [apply (fexp_correct 53 1024 d_prec)|apply valid_rnd_round_mode]. Qed.
  Lemma rnd_bpow e : -1022 <= e -> rnd (bpow radix2 e) = bpow radix2 e.
  Proof.
    intros H. apply round_generic; [apply valid_rnd_round_mode|]. apply generic_format_bpow.
    unfold SpecFloat.fexp, SpecFloat.emin. lia.
  Qed.
  Lemma d_tiny (a : double) : BinarySingleNaN.is_finite a = true -> (bpow radix2 (-22) <= Rabs (B2R a))%R -> tiny (N := N) a = false.
  Proof.
    intros F H. unfold tiny. change (Bleb (Babs a) (d_of 1 (-23)) = false).
    rewrite Bleb_correct, (proj2 d_eps), B2R_Babs; [|now destruct a|apply d_eps]. apply Rle_bool_false.
    eapply Rlt_le_trans; [|exact H]. now apply bpow_lt.
  Qed.
  Lemma d_quotient a k : d_int a k -> 2 <= k <= 2 ^ 22 ->
    BinarySingleNaN.is_finite (quot a) = true /\ (bpow radix2 (-22) <= B2R (quot a) <= bpow radix2 (-1))%R.
  Proof.
    intros [Fa Ra] [K1 K2].
    destruct (d_of_int 1) as [F1 R1]; [unfold d_ok; lia|].
    assert (B : (bpow radix2 (-22) <= 1 / IZR k <= bpow radix2 (-1))%R).
    { apply IZR_le in K1, K2. unfold Rdiv. rewrite Rmult_1_l. change (bpow radix2 (-22)) with (/ IZR (2 ^ 22))%R. change (bpow radix2 (-1)) with (/ IZR 2)%R.
      split; apply Rinv_le_contravar; simpl in *; lra. }
    pose proof (rnd_le _ _ (proj1 B)) as B1. pose proof (rnd_le _ _ (proj2 B)) as B2. rewrite rnd_bpow in B1, B2 by lia.
    pose proof (bpow_gt_0 radix2 (-22)) as P.
    pose proof (Bdiv_correct 53 1024 d_prec d_max mode_NE (d_of 1 0) a) as D. rewrite Ra, R1 in D.
    rewrite Rlt_bool_true in D.
    - destruct D as (D1 & D2 & _); [apply not_0_IZR; lia|]. rewrite D1, D2. auto.
    - rewrite Rabs_pos_eq by lra. apply Rle_lt_trans with (bpow radix2 (-1)); [exact B2|]. now apply bpow_lt.
  Qed.
  Lemma d_reciprocals : Reciprocals N d_int (2 ^ 22).
  Proof.
    constructor.
    - intros a k [Fa Ra] Hk. change (Bltb a (d_of 0 0) = false). destruct (d_of_int 0) as [F0 R0]; [unfold d_ok; lia|].
      rewrite Bltb_correct by assumption. rewrite Ra, R0. apply Rlt_bool_false. apply IZR_le. lia.
    - intros a k Ha Hk. destruct (d_quotient a k Ha Hk) as (F & B1 & B2). pose proof (bpow_gt_0 radix2 (-22)) as P. split.
      + change (Beqb (quot a) (d_of 1 0) = false). destruct (d_of_int 1) as [F1 R1]; [unfold d_ok; lia|].
        rewrite Beqb_correct by assumption. rewrite R1. apply Req_bool_false. change (bpow radix2 (-1)) with (/ 2)%R in B2. lra.
      + apply d_tiny; [exact F|]. change (bpow radix2 (-22) <= Rabs (B2R (quot a)))%R. rewrite Rabs_pos_eq; lra.
    - intros d z a k [Fd Rd] Hz Ha Hk. destruct (d_quotient a k Ha Hk) as (F & B1 & B2). pose proof (bpow_gt_0 radix2 (-22)) as P.
      set (q := quot a) in *.
      assert (Z1 : (1 <= Rabs (IZR z))%R) by (rewrite <- abs_IZR; apply IZR_le; lia).
      pose proof (Bmult_correct 53 1024 d_prec d_max mode_NE d q) as M. rewrite Rd in M.
      assert (L1 : (bpow radix2 (-22) <= Rabs (IZR z * B2R q))%R).
      { rewrite Rabs_mult, (Rabs_pos_eq (B2R q)) by lra. apply Rle_trans with (1 * B2R q)%R; [lra|]. apply Rmult_le_compat_r; lra. }
      assert (L2 : (Rabs (IZR z * B2R q) <= Rabs (B2R d))%R).
      { rewrite Rd, Rabs_mult, (Rabs_pos_eq (B2R q)) by lra. change (bpow radix2 (-1)) with (/ 2)%R in B2.
        rewrite <- (Rmult_1_r (Rabs (IZR z))) at 2. apply Rmult_le_compat_l; [apply Rabs_pos|]. lra. }
      assert (A1 : (bpow radix2 (-22) <= Rabs (rnd (IZR z * B2R q)))%R).
      { apply abs_round_ge_generic; [apply (fexp_correct 53 1024 d_prec)|apply valid_rnd_round_mode| |exact L1].
        apply generic_format_bpow. unfold SpecFloat.fexp, SpecFloat.emin. lia. }
      assert (A2 : (Rabs (rnd (IZR z * B2R q)) <= Rabs (B2R d))%R).
      { apply abs_round_le_generic; [apply (fexp_correct 53 1024 d_prec)|apply valid_rnd_round_mode| |exact L2].
        apply generic_format_abs, generic_format_B2R. }
      rewrite Rlt_bool_true in M by (eapply Rle_lt_trans; [exact A2|apply abs_B2R_lt_emax]).
      destruct M as (M1 & M2 & _). apply (d_tiny (dmul d q)).
      + rewrite M2. rewrite Fd. exact F.
      + rewrite M1. exact A1.
  Qed.
End Doubles.

(** The terms of the integral of a polynomial in doubles: the arithmetic of
    [integral_of] is that of double here. *)
Theorem c73_doubles : forall pw lg pwx lgx, let N := double_ops pw lg pwx lgx in
  forall post (e : expr double) ts x, poly d_int d_ok false post e ts -> sum_or_difference e ->
  weight ts <= 2 ^ 53 -> two_left ts -> in_one_variable x (2 ^ 22) ts -> x <> "C" ->
  exists l li kept lost r,
    combined d_int l ts /\ length l = terms_left ts /\ List.Forall2 (integral_of x) l li /\
    Permutation (kept ++ lost) li /\ length kept = two_digits (terms_left ts) /\
    integral_is e x r /\ tree_over OAdd (Nat.log2_up (S (length kept))) (kept ++ [EVar "C"]) r.
Proof.
  intros pw lg pwx lgx N post e ts x He Hs Hw H2 Hv Hx.
  apply (c73_terms double N d_int d_ok (double_ints pw lg pwx lgx) (2 ^ 22)) with (post := post); auto.
  - unfold d_ok. lia.
  - apply d_reciprocals.
  - unfold d_ok. pose proof (weight_nonneg ts). lia.
Qed.
Print Assumptions c73_doubles.

(** x + x^2 + ... + x^7 is a sum of seven terms. *)
Lemma seven_poly : poly q_int any false false seven (map (fun k => (Some ("x", k), 1)) [1; 2; 3; 4; 5; 6; 7]).
Proof.
  assert (T : forall k, 2 <= k -> poly q_int any false false (EExp (qv "x") (qr k)) [(Some ("x", k), 1)]).
  { intros k Hk. apply po_term, tm_power. constructor; [reflexivity|lia|lia]. }
  assert (A : forall e ts k, poly q_int any false false e ts -> 2 <= k ->
            poly q_int any false false (EAdd e (EExp (qv "x") (qr k))) (ts ++ [(Some ("x", k), 1)])).
  { intros e ts k He Hk. apply po_add; auto. right. left. reflexivity. }
  unfold seven. cbn [fold_left].
  apply (A _ (map (fun k => (Some ("x", k), 1)) [1; 2; 3; 4; 5; 6])); [|lia].
  apply (A _ (map (fun k => (Some ("x", k), 1)) [1; 2; 3; 4; 5])); [|lia].
  apply (A _ (map (fun k => (Some ("x", k), 1)) [1; 2; 3; 4])); [|lia].
  apply (A _ (map (fun k => (Some ("x", k), 1)) [1; 2; 3])); [|lia].
  apply (A _ (map (fun k => (Some ("x", k), 1)) [1; 2])); [|lia].
  apply (A _ [(Some ("x", 1), 1)]); [|lia]. apply po_term, tm_power. constructor.
Qed.
Lemma seven_in : in_one_variable "x" (2 ^ 22) (map (fun k => (Some ("x", k), 1)) [1; 2; 3; 4; 5; 6; 7]).
Proof. intros y k H. cbn in H. repeat (destruct H as [H|H]; [injection H as <- <-; split; [reflexivity|lia]|]). destruct H. Qed.

Theorem c73_refuted : ~ C73_statement.
Proof.
  intros S. destruct (S seven _ "x" (poly_polynomial _ _ _ _ _ _ seven_poly) seven_in) as (r & Ir & A); [discriminate|].
  destruct c26_seven_terms as (r' & Hr & Hn). apply integral_is_run in Hr. rewrite (integral_is_fun _ _ _ _ Hr Ir) in Hn. apply Hn, A.
Qed.
Print Assumptions c73_refuted.

(** The same from the theorem: seven is not a sum of two powers of two, and six
    of the seven terms are kept. *)
Example c73_seven : terms_left (map (fun k => (Some ("x", k), 1)) [1; 2; 3; 4; 5; 6; 7]) = 7%nat /\ two_digits 7 = 6%nat /\ ~ two_powers 7.
Proof.
  split; [reflexivity|]. split; [reflexivity|]. intros H. apply two_digits_eq in H; [discriminate H|lia].
Qed.
Example c73_seven_case : exists r, integral_is seven "x" r /\ ~ forall rho, antiderivative_at Q2R "x" rho seven r.
Proof.
  destruct (c73_antiderivative_partial false seven _ "x" seven_poly) as (r & Ir & A).
  - eexists _, _. left. reflexivity.
  - exists (Some ("x", 1)), (Some ("x", 2)). split; [discriminate|]. split; discriminate.
  - exact seven_in.
  - discriminate.
  - exists r. split; [exact Ir|]. intros H. apply A in H. exact (proj2 (proj2 c73_seven) H).
Qed.

(** 3*x^2 - (x + 5) + 7*x^4, four terms, is integrated completely. *)
Definition four : expr Q :=
  EAdd (ESub (EMul (qr 3) (EExp (qv "x") (qr 2))) (EAdd (qv "x") (qr 5))) (EMul (qr 7) (EExp (qv "x") (qr 4))).
Definition four_terms : list monomial :=
  ([(Some ("x", 2), 3)] ++ scale (-1) ([(Some ("x", 1), 1)] ++ [(None, 5)])) ++ [(Some ("x", 4), 7)].
Lemma four_poly : poly q_int any false false four four_terms.
Proof.
  assert (T : forall c k, 2 <= k -> poly q_int any false false (EMul (qr c) (EExp (qv "x") (qr k))) [(Some ("x", k), c)]).
  { intros c k Hk. apply po_term. eapply tm_scaled; [reflexivity| |apply ml_pre]. constructor; [reflexivity|lia|lia]. }
  apply po_add; [apply po_sub; [apply T; lia|apply po_add| |]|apply T; lia|].
  - apply po_term, tm_power. constructor.
  - apply po_term. constructor. reflexivity.
  - left. reflexivity.
  - left. reflexivity.
  - left. reflexivity.
  - right. left. reflexivity.
Qed.
Example c73_case : exists r, integral_is four "x" r /\ forall rho, antiderivative_at Q2R "x" rho four r.
Proof.
  destruct (c73_antiderivative_partial false four four_terms "x" four_poly) as (r & Ir & A).
  - eexists _, _. left. reflexivity.
  - exists (Some ("x", 1)), (Some ("x", 2)). split; [discriminate|]. split; discriminate.
  - intros y k H. cbn in H. repeat (destruct H as [H|H]; [first [discriminate H | injection H as <- <-; split; [reflexivity|lia]]|]). destruct H.
  - discriminate.
  - exists r. split; [exact Ir|]. apply A. change (terms_left four_terms) with 4%nat. exists 2%nat, 0%nat. left. reflexivity.
Qed.
Example c73_doubles_case : forall pw lg pwx lgx, let N := double_ops pw lg pwx lgx in
  exists e : expr double, sum_or_difference e /\ exists r, integral_is e "x" r /\ exists k1 k2, tree_over OAdd 2 [k1; k2; EVar "C"] r.
Proof.
  intros pw lg pwx lgx N. set (e := EAdd (EMul (EReal (d_of 3 0)) (EVar "x")) (EReal (d_of 5 0)) : expr double). exists e.
  assert (S : sum_or_difference e) by (eexists _, _; left; reflexivity). split; [exact S|].
  destruct (c73_doubles pw lg pwx lgx false e ([(Some ("x", 1), 3)] ++ [(None, 5)]) "x") as (l & li & kept & lost & r & _ & _ & _ & _ & L & Ir & T).
  - apply po_add; [|apply po_term; constructor; apply d_of_int; unfold d_ok; lia|left; reflexivity].
    apply po_term. eapply tm_scaled; [apply d_of_int; unfold d_ok; lia|constructor|apply ml_pre].
  - exact S.
  - cbn. lia.
  - exists (Some ("x", 1)), None. split; [discriminate|]. split; discriminate.
  - intros y k H. cbn in H. destruct H as [H|[H|[]]]; [injection H as <- <-; split; [reflexivity|lia]|discriminate].
  - discriminate.
  - exists r. split; [exact Ir|]. change (terms_left _) with 2%nat in L. destruct kept as [|k1 [|k2 [|? ?]]]; try discriminate L. exists k1, k2. exact T.
Qed.
Example c73_term_case : integral_is (EMul (qr 6) (EExp (qv "x") (qr 2))) "x" (EAdd (EMul (EReal (n_mul (6 # 1) (n_div n1 (n_add (2 # 1) n1)))) (EExp (qv "x") (EReal (n_add (2 # 1) n1)))) (EVar "C")).
Proof.
  destruct (c73_term Q Q_ops q_int any q_ints (2 ^ 22) I q_reciprocals (EMul (qr 6) (EExp (qv "x") (qr 2))) (Some ("x", 2), 6) "x") as (i & Hi & Ii).
  - apply nt_scaled; [reflexivity|lia|lia|]. constructor; [reflexivity|lia|lia].
  - intros y k H. cbn in H. destruct H as [H|[]]. injection H as <- <-. split; [reflexivity|lia].
  - discriminate.
  - inversion Hi; subst. exact Ii.
Qed.
