(** Property C75: definite integrals of polynomials in one variable with
    integer coefficients. *)
From Coq Require Import String Bool Arith ZArith QArith Reals Lra Lia Permutation Qreals.
From Coquelicot Require Import Coquelicot.
From Coq Require Import List.
From Verif Require Import Base Num Expr Ghost Simplify Calculus Spec SpecEquals SpecPoly SpecPolyInt SpecEvaluate QNum DoubleNum TreeProofs PowProofs SemProofs MonadProofs EqualsProofs FuelProofs PolyProofs PolySem PolyDiffSem SumProofs PolyInt PolyIntSem
  PropertiesTree PropertiesSimplify PropertiesPoly PropertiesLinearPoly PropertiesIntegral PropertiesPolyInt PropertiesEvaluate.
Import ListNotations.
Open Scope string_scope.
Open Scope Z_scope.
Open Scope list_scope.

(** IntegrateWithBounds returns [r], if given enough fuel. *)
Definition definite_is {num} {N : NumOps num} (e : expr num) (x : string) (lower upper r : expr num) : Prop :=
  exists n0, forall n, (n0 <= n)%nat -> snd (integrate_with_bounds n e (EVar x) lower upper) = Ok (Some r).

(** The full property, for exact numbers. *)
Definition C75_statement : Prop :=
  forall (e : expr Q) ts x, polynomial q_int e ts -> in_one_variable x (2 ^ 22) ts -> x <> "C" ->
  forall a b, exists v, definite_is e x (EReal a) (EReal b) (EReal v) /\
    forall rho f, integrand Q2R x rho (Q2R a) (Q2R b) e f -> is_RInt f (Q2R a) (Q2R b) (Q2R v).

Section Run.
  Context {num : Type} {N : NumOps num}.
  Notation expr := (expr num).

  Lemma snd_m_eq (a b : expr) c : equals a b = Some c -> snd (m_eq a b) = Ok c.
  Proof. intros H. unfold m_eq. rewrite H. unfold emit. destruct (c && negb (eq_strict a b)); reflexivity. Qed.
  Lemma snd_flag b : snd (flag b) = Ok tt.
  Proof. destruct b; reflexivity. Qed.

  Lemma definite_run (e : expr) x a b g k : n_eqb a b = false -> equals e (real 0) = Some false ->
    integral_is e x (EAdd g k) -> equals (EAdd g k) e = Some false -> arithmetic_in x g ->
    definite_is e x (EReal a) (EReal b) (EReal (n_sub (fold_lit (written x b g)) (fold_lit (written x a g)))).
  Proof.
    intros Hab He (m & Hi) Hf Hg. exists (m + height g + 3)%nat. intros n Hn. unfold integrate_with_bounds.
    rewrite (snd_bind_ok _ _ _ (snd_m_eq (EReal a) (EReal b) false ltac:(cbn; now rewrite Hab))).
    rewrite (snd_bind_ok _ _ _ (snd_m_eq _ _ _ He)).
    rewrite (snd_bind_ok _ _ _ (Hi n ltac:(lia))). rewrite (snd_bind_ok _ _ _ (snd_m_eq _ _ _ Hf)).
    cbn [rcast pAdd binop_eqb as_bin]. rewrite (snd_bind_ok _ _ _ (snd_flag _)).
    rewrite (snd_bind_ok _ _ _ (subst_fold x b g Hg n ltac:(lia))), (snd_bind_ok _ _ _ (subst_fold x a g Hg n ltac:(lia))).
    set (u := fold_lit (written x b g)). set (l := fold_lit (written x a g)).
    assert (L : forall c, snd (simp n false (EReal c)) = Ok (EReal c)) by (intros c; destruct n; [lia|reflexivity]).
    rewrite (snd_bind_ok _ _ _ (snd_try_ok _ _ (L u))), (snd_bind_ok _ _ _ (snd_try_ok _ _ (L l))).
    assert (S : snd (simp n false (ESub (EReal u) (EReal l))) = Ok (EReal (fold_lit (ESub (EReal u) (EReal l))))).
    { apply literal_fold; cbn; [tauto|lia]. }
    rewrite (snd_bind_ok _ _ _ (snd_try_ok _ _ S)). reflexivity.
  Qed.
  Lemma definite_same (e : expr) x a b : n_eqb a b = true -> definite_is e x (EReal a) (EReal b) (real 0).
  Proof. intros H. exists 0%nat. intros n _. apply c27_equal_bounds. cbn. now rewrite H. Qed.

  (* Equals cannot take the integral for the integrand: C does not occur there *)
  Lemma tree_in o d (l : list expr) t y : tree_over o d l t -> In (EVar y) l -> In (EVar y) (flat o t).
  Proof.
    intros H. induction H as [d e|d l1 l2 a b H1 IH1 H2 IH2]; intros I.
    - destruct I as [->|[]]. now left.
    - cbn [flat]. replace (binop_eqb o o) with true by now destruct o. apply in_app_or in I. apply in_or_app. destruct I; auto.
  Qed.
  Lemma flat_mentions o y (e : expr) : In (EVar y) (flat o e) -> mentions_var y e.
  Proof.
    induction e as [c| |z| | | |r c d|o' a IHa b IHb|o' a IHa]; cbn [flat mentions_var]; intros H;
      try (destruct H as [H|[]]; try discriminate H).
    - now injection H as ->.
    - destruct (binop_eqb o o'); [|destruct H as [H|[]]; discriminate H]. apply in_app_or in H. destruct H; auto.
  Qed.
  Lemma equals_new g k (e : expr) y : no_pi (EAdd g k) -> In (EVar y) (flat OAdd (EAdd g k)) -> ~ mentions_var y e ->
    equals (EAdd g k) e = Some false.
  Proof.
    intros Hp Hi Hm. destruct (equals (EAdd g k) e) as [[]|] eqn:E; [|reflexivity|].
    - exfalso. apply (c08_meaning num N _ _ Hp) in E. inversion E as [| | | | | | |? ? ? ? ? Hc|? ? ? ? ? Hc F]; subst.
      + apply Hc. left. reflexivity.
      + destruct (F (EVar y) Hi) as (z & Hz & Cz). inversion Cz; subst. apply Hm. apply (flat_mentions OAdd).
        exact Hz.
    - exfalso. exact (c10_equals_total_partial num N _ e Hp E).
  Qed.
End Run.

Section Terms.
  Context {num : Type} {N : NumOps num}.
  Variables (lit : num -> Z -> Prop) (ok : Z -> Prop).
  Hypothesis IL : IntLits N lit ok.
  Notation expr := (expr num).
  Notation item := (@item num).

  Lemma polynomial_mentions e ts y : polynomial lit e ts -> mentions_var y e -> exists k, In (Some (y, k)) (keys ts).
  Proof.
    assert (P : forall e z k, power lit e z k -> mentions_var y e -> z = y) by (intros ? ? ? [z|z d k _ _ _]; cbn; intuition congruence).
    induction 1 as [e t H|p q tp tq Hp IHp Hq IHq|p q tp tq Hp IHp Hq IHq|p tp Hp IHp|d z p tp Hd Hp IHp]; cbn [mentions_var keys]; intros M.
    - destruct H as [d z Hd|e z k He|d z e w k m Hd He Hm]; cbn in *; [contradiction| |].
      + rewrite (P _ _ _ He M). exists k. now left.
      + assert (M' : mentions_var y e) by (destruct Hm; cbn in M; tauto). rewrite (P _ _ _ He M'). exists k. now left.
    - unfold keys. rewrite map_app. destruct M as [M|M]; [destruct (IHp M) as (k & I)|destruct (IHq M) as (k & I)]; exists k; apply in_or_app; auto.
    - unfold keys, scale. rewrite map_app, map_map. destruct M as [M|M]; [destruct (IHp M) as (k & I)|destruct (IHq M) as (k & I)]; exists k; apply in_or_app; auto.
    - unfold keys, scale. rewrite map_map. exact (IHp M).
    - unfold keys, scale. rewrite map_map. apply IHp. tauto.
  Qed.

  Lemma norm_arithmetic x i : wf lit i -> fst (ikey i) = x -> arithmetic_in x (norm i).
  Proof.
    unfold wf, norm. intros W E. assert (A : arithmetic_in x (base i)) by (destruct W; cbn; auto).
    destruct (n_eqb (coef i) n1); cbn; auto.
  Qed.
  Lemma tree_arithmetic x d l (t : expr) : tree_over OAdd d l t -> Forall (arithmetic_in x) l -> arithmetic_in x t.
  Proof.
    intros H. induction H as [d e|d l1 l2 a b H1 IH1 H2 IH2]; intros F; [now apply Forall_inv in F|].
    apply Forall_app in F. destruct F. cbn. auto.
  Qed.
  Lemma arithmetic_no_pi x (e : expr) : arithmetic_in x e -> no_pi e.
  Proof.
    unfold no_pi. induction e as [c| |z| | | |r c d|o a IHa b IHb|o a IHa]; cbn [arithmetic_in forall_sub]; try tauto;
      intros H; try (split; [discriminate|exact I]).
    split; [discriminate|]. destruct o; tauto.
  Qed.
  Lemma tree_no_pi d l (t : expr) : tree_over OAdd d l t -> Forall no_pi l -> no_pi t.
  Proof.
    intros H. induction H as [d e|d l1 l2 a b H1 IH1 H2 IH2]; intros F; [now apply Forall_inv in F|].
    apply Forall_app in F. destruct F. unfold no_pi in *. cbn. split; [discriminate|auto].
  Qed.
  Lemma height_pos (e : expr) : (1 <= height e)%nat. Proof. destruct e; cbn; lia. Qed.

  (* how the tree over the integrals and C is split *)
  Lemma kept_split (kept : list item) n r : (1 <= n)%nat -> length kept = two_digits n -> tree OAdd (map norm kept ++ [EVar "C"]) = Some r ->
    exists first mid g k, kept = first ++ mid /\ length first = (2 ^ Nat.log2 n)%nat /\ r = EAdd g k /\
      tree OAdd (map norm first) = Some g /\ tree OAdd (map norm mid ++ [EVar "C"]) = Some k.
  Proof.
    intros Hn L T. set (j := Nat.log2 n). assert (Lj : Nat.log2 (length kept) = j) by (rewrite L; apply log2_two_digits; lia).
    assert (K1 : (1 <= length kept)%nat).
    { rewrite L. destruct (Nat.eq_dec n 1) as [->|]; [cbn; lia|]. pose proof (two_digits_two n ltac:(lia)). lia. }
    pose proof (Nat.log2_spec (length kept) ltac:(lia)) as [B1 B2]. rewrite Lj in B1, B2. rewrite Nat.pow_succ_r' in B2.
    exists (firstn (2 ^ j) kept), (skipn (2 ^ j) kept).
    assert (F : length (firstn (2 ^ j) kept) = (2 ^ j)%nat) by (rewrite firstn_length; lia).
    assert (Sk : length (skipn (2 ^ j) kept) = (length kept - 2 ^ j)%nat) by apply skipn_length.
    destruct (tree_split OAdd j (map norm (firstn (2 ^ j) kept)) (map norm (skipn (2 ^ j) kept) ++ [EVar "C"])) as (g & k & Tg & Tk & Tr).
    - rewrite map_length. exact F.
    - rewrite app_length, map_length, Sk. cbn [length]. lia.
    - exists g, k. rewrite app_assoc, <- map_app, firstn_skipn in Tr. split; [symmetry; apply firstn_skipn|]. split; [exact F|].
      split; [congruence|]. auto.
  Qed.
End Terms.

(** ** What is proved about every representation of numbers *)
Section Poly.
  Context {num : Type} {N : NumOps num}.
  Variables (lit : num -> Z -> Prop) (ok : Z -> Prop).
  Hypothesis IL : IntLits N lit ok.
  Variable top : Z.
  Hypothesis Hok : ok top.
  Hypothesis RC : Reciprocals N lit top.
  Notation expr := (expr num).
  Notation item := (@item num).

  Lemma definite_poly x post (e : expr) ts : x <> "C" -> poly lit ok false post e ts -> sum_or_difference e -> ok (weight ts) -> two_left ts ->
    in_one_variable x top ts ->
    exists ps (first rest : list item) g, combined lit (map fst3 ps) ts /\ Forall (Prim lit top x) ps /\ NoDup (map key3 ps) /\
      (forall k, total k (map (fun p => snd (fst p)) ps) = total k ts) /\
      Permutation (first ++ rest) (map snd ps) /\ length ps = terms_left ts /\ length first = (2 ^ Nat.log2 (terms_left ts))%nat /\
      tree OAdd (map norm first) = Some g /\ arithmetic_in x g /\
      forall a b, n_eqb a b = false ->
        definite_is e x (EReal a) (EReal b) (EReal (n_sub (fold_lit (written x b g)) (fold_lit (written x a g)))).
  Proof.
    intros Hx He Hs Hw H2 Hv. destruct RC as [R1 R2 R3].
    destruct (integ_poly lit ok IL top Hok R1 R2 R3 x Hx post e ts He Hs Hw H2 Hv) as (ps & tr & r & kept & lost & C & P & D & T & I & R & Q & L & _).
    pose proof (combined_count lit _ _ C) as K. rewrite map_length in K.
    assert (K1 : (1 <= length ps)%nat).
    { destruct ps; [|cbn; lia]. destruct H2 as (k & _ & _ & Z & _). rewrite <- T in Z. cbn in Z. lia. }
    destruct (kept_split kept (length ps) r K1 L R) as (first & mid & g & k & -> & Lf & -> & Tg & Tk).
    assert (W : Forall (fun i => arithmetic_in x (norm i)) (map snd ps)).
    { clear - P IL Hok. induction P as [|q qs Hq _ IHq]; constructor; auto. refine (norm_arithmetic lit x _ _ (proj2 (prim_degree lit x top _ _ _ Hq))).
      eapply prim_wf; eauto. }
    apply (Permutation_Forall (Permutation_sym Q)) in W. rewrite <- app_assoc in W. apply Forall_app in W. destruct W as [W1 W2].
    apply Forall_app in W2. destruct W2 as [W2 _].
    assert (Ag : arithmetic_in x g) by (eapply tree_arithmetic; [eapply tree_tree_over; exact Tg|]; now apply Forall_map).
    exists ps, first, (mid ++ lost), g. repeat split; auto; try (rewrite app_assoc; exact Q); try (rewrite <- K; exact Lf).
    intros a b Hab. apply definite_run with (k := k); auto.
    - destruct Hs as (p & q & [-> | ->]); reflexivity.
    - eapply integrates_is; eauto.
    - apply (equals_new g k e "C").
      + assert (Pk : no_pi k).
        { eapply tree_no_pi; [eapply tree_tree_over; exact Tk|]. apply Forall_app. split.
          - apply Forall_map. eapply Forall_impl; [|exact W2]. intros i Hi. exact (arithmetic_no_pi x _ Hi).
          - repeat constructor. discriminate. }
        unfold no_pi in *. cbn. split; [discriminate|]. split; [exact (arithmetic_no_pi x g Ag)|exact Pk].
      + eapply tree_in; [eapply tree_tree_over; exact R|]. apply in_or_app. right. now left.
      + intros M. destruct (polynomial_mentions lit e ts "C" (poly_polynomial _ _ _ _ _ _ He) M) as (j & J). apply Hv in J. destruct J. congruence.
  Qed.

  Lemma definite_term x (e : expr) t : x <> "C" -> neat lit e t -> in_one_variable x top [t] ->
    exists i, prim lit top x e t i /\
      forall a b, n_eqb a b = false ->
        definite_is e x (EReal a) (EReal b) (EReal (n_sub (fold_lit (written x b (norm i))) (fold_lit (written x a (norm i))))).
  Proof.
    intros Hx He Hv. destruct RC as [R1 R2 R3].
    destruct (neat_prim lit top x e t He) as (i & Hi); [intros y k E; apply Hv; left; exact E|].
    exists i. split; [exact Hi|]. intros a b Hab.
    assert (A : arithmetic_in x (norm i)) by (refine (norm_arithmetic lit x _ _ (proj2 (prim_degree lit x top _ _ _ Hi))); eapply prim_wf; eauto).
    apply definite_run with (k := EVar "C"); auto.
    - destruct He as [c z Hc Z0|p y k Hp|c z p y k Hc Z0 Z1 Hp]; cbn; [|destruct Hp; reflexivity|reflexivity].
      f_equal. change (n_eqb c n0 = false). rewrite (il_eqb _ _ _ IL c n0 z 0 Hc); [now apply Z.eqb_neq|].
      apply (il_of_Z _ _ _ IL). eapply (il_ok_le _ _ _ IL); [apply (il_ok_2 _ _ _ IL)|lia].
    - eapply integrates_is. eapply integ_term; eauto.
    - apply (equals_new _ _ _ "C").
      + unfold no_pi. cbn. split; [discriminate|]. split; [exact (arithmetic_no_pi x _ A)|split; [discriminate|exact I]].
      + cbn [flat binop_eqb]. apply in_or_app. right. now left.
      + intros M. assert (P : polynomial lit e [t]) by (apply pn_term; destruct He; [constructor|constructor|eapply tm_scaled; [| |apply ml_pre]]; eauto).
        destruct (polynomial_mentions lit e [t] "C" P M) as (j & J). apply Hv in J. destruct J. congruence.
  Qed.
End Poly.

(** The definite integral of a sum or difference of such terms is the
    difference of the values at the bounds of a sum of integrals of its terms,
    but not of all of them: of the largest power of two that is at most their
    number. *)
Theorem c75_terms : forall (num : Type) (N : NumOps num) lit ok, IntLits N lit ok ->
  forall top, ok top -> Reciprocals N lit top ->
  forall post (e : expr num) ts x, poly lit ok false post e ts -> sum_or_difference e ->
  ok (weight ts) -> two_left ts -> in_one_variable x top ts -> x <> "C" ->
  exists l li first rest g,
    combined lit l ts /\ length l = terms_left ts /\ List.Forall2 (integral_of x) l li /\
    Permutation (first ++ rest) li /\ length first = (2 ^ Nat.log2 (terms_left ts))%nat /\
    tree_over OAdd (Nat.log2 (terms_left ts)) first g /\
    forall a b, n_eqb a b = false -> exists u v,
      simplifies_to (written x a g) (EReal u) /\ simplifies_to (written x b g) (EReal v) /\
      definite_is e x (EReal a) (EReal b) (EReal (n_sub v u)).
Proof.
  intros num N lit ok IL top Hok RC post e ts x He Hs Hw H2 Hv Hx.
  destruct (definite_poly lit ok IL top Hok RC x post e ts Hx He Hs Hw H2 Hv) as (ps & first & rest & g & C & P & D & T & Q & K & Lf & Tg & Ag & R).
  exists (map fst3 ps), (map norm (map snd ps)), (map norm first), (map norm rest), g.
  split; [exact C|]. split; [now rewrite map_length|]. split; [eapply prims_integral; eauto|]. split; [rewrite <- map_app; now apply Permutation_map|].
  split; [now rewrite map_length|]. split.
  - apply tree_tree_over in Tg. rewrite map_length, Lf, Nat.log2_up_pow2 in Tg by lia. exact Tg.
  - intros a b Hab. exists (fold_lit (written x a g)), (fold_lit (written x b g)). split; [|split; [|now apply R]];
      (eexists; intros n prefer Hn; apply literal_fold; [now apply written_literal|exact Hn]).
Qed.
Print Assumptions c75_terms.

(** A term alone. *)
Theorem c75_term : forall (num : Type) (N : NumOps num) lit ok, IntLits N lit ok ->
  forall top, ok top -> Reciprocals N lit top ->
  forall (e : expr num) t x, neat lit e t -> in_one_variable x top [t] -> x <> "C" ->
  exists i, integral_of x e i /\
    forall a b, n_eqb a b = false -> exists u v,
      simplifies_to (written x a i) (EReal u) /\ simplifies_to (written x b i) (EReal v) /\
      definite_is e x (EReal a) (EReal b) (EReal (n_sub v u)).
Proof.
  intros num N lit ok IL top Hok RC e t x He Hv Hx.
  destruct (definite_term lit ok IL top Hok RC x e t Hx He Hv) as (i & Hi & R). exists (norm i). split; [eapply prim_integral; eauto|].
  assert (A : arithmetic_in x (norm i)) by (refine (norm_arithmetic lit x _ _ (proj2 (prim_degree lit x top _ _ _ Hi))); eapply prim_wf; eauto).
  intros a b Hab. exists (fold_lit (written x a (norm i))), (fold_lit (written x b (norm i))). split; [|split; [|now apply R]];
      (eexists; intros n prefer Hn; apply literal_fold; [now apply written_literal|exact Hn]).
Qed.
Print Assumptions c75_term.

(** ** Exact numbers *)
Section Values.
  Context {num : Type} {N : NumOps num}.
  Variables (lit : num -> Z -> Prop) (ok : Z -> Prop) (toR : num -> R).
  Hypothesis IL : IntLits N lit ok.
  Hypothesis EX : Exact N toR.
  Hypothesis HR : forall c z, lit c z -> toR c = IZR z.
  Hypothesis PE : forall c d k, lit d k -> n_pow_exact c d = true.
  Variables (x : string) (top : Z).
  Hypothesis Hok : ok top.
  Notation expr := (expr num).
  Notation item := (@item num).

  Lemma value_base c i : wf lit i -> 1 <= degree i -> fst (ikey i) = x ->
    toR (fold_lit (written x c (base i))) = powerRZ (toR c) (degree i).
  Proof.
    intros W D E. unfold wf, degree in *. assert (K : kok (fun _ => toR c) (fst (ikey i), snd (ikey i))) by (split; [|right]; cbn; lia).
    pose proof (proj2 (PolySem.ev_power lit toR HR (fun _ => toR c) _ _ _ W) K) as V. rewrite (kval_rval _ _ K) in V. cbn [rval] in V.
    rewrite E in *. clear E K. generalize dependent (snd (ikey i)). generalize (base i). intros p k W Hk V.
    remember x as y eqn:Ey. destruct W as [y|y d k Hd K0 K1]; cbn [written fold_lit fold2]; rewrite Ey, String.eqb_refl; cbn [fold_lit].
    - simpl. ring.
    - assert (E0 : n_eqb d n0 = false).
      { destruct (n_eqb d n0) eqn:E; [|reflexivity]. apply (ex_eqb N toR EX) in E. rewrite (HR _ _ Hd) in E. unfold n0 in E. rewrite (ex_of_Z N toR EX) in E.
        apply eq_IZR in E. contradiction. }
      rewrite E0. destruct (n_eqb c n0) eqn:E1.
      + apply (ex_eqb N toR EX) in E1. unfold n0 in E1. rewrite (ex_of_Z N toR EX) in E1. rewrite E1, (ex_of_Z N toR EX), powerRZ_pos, pow_i by lia. reflexivity.
      + cbn [ev] in V. destruct V as (p & q & -> & -> & V). apply (ex_pow N toR EX c d _ (PE c d k Hd)) in V. symmetry. now apply RtoC_inj.
  Qed.
  Lemma value_norm c i : wf lit i -> big i -> 1 <= degree i -> fst (ikey i) = x ->
    toR (fold_lit (written x c (norm i))) = ival toR i (toR c).
  Proof.
    intros W B D E. pose proof (value_base c i W D E) as V. unfold norm, ival. destruct (n_eqb (coef i) n1) eqn:E1.
    - rewrite V. apply (ex_eqb N toR EX) in E1. rewrite E1. unfold n1. rewrite (ex_of_Z N toR EX). ring.
    - cbn [written fold_lit fold2]. unfold big in B. rewrite B, E1, (ex_mul N toR EX), V. reflexivity.
  Qed.
  Lemma value_tree c d l (t : expr) : tree_over OAdd d l t ->
    toR (fold_lit (written x c t)) = fold_right (fun e s => toR (fold_lit (written x c e)) + s)%R 0%R l.
  Proof.
    intros H. induction H as [d e|d l1 l2 a b H1 IH1 H2 IH2]; cbn [fold_right]; [ring|].
    cbn [written fold_lit fold2]. rewrite (ex_add N toR EX), IH1, IH2, fold_right_app. clear.
    induction l1 as [|e l IH]; cbn [fold_right]; [ring|rewrite <- IH; ring].
  Qed.
  Definition proper (i : item) : Prop := wf lit i /\ big i /\ 1 <= degree i /\ fst (ikey i) = x.
  Lemma value_first c first g : Forall proper first -> tree OAdd (map norm first) = Some g ->
    toR (fold_lit (written x c g)) = total_of (ival toR) first (toR c).
  Proof.
    intros F T. apply tree_tree_over in T. rewrite (value_tree c _ _ _ T). clear T. unfold total_of.
    induction F as [|i l (W & B & D & E) F IH]; cbn [map fold_right]; [reflexivity|]. now rewrite IH, value_norm.
  Qed.

  (* the function that the polynomial denotes *)
  Lemma poly_function prefer post (e : expr) ts ps : poly lit ok prefer post e ts -> in_one_variable x top ts -> Forall (Prim lit top x) ps ->
    NoDup (map key3 ps) -> (forall k, total k (map (fun p => snd (fst p)) ps) = total k ts) ->
    forall rho, is_function toR x rho e (fun t => total_of (dval toR) (map snd ps) t).
  Proof.
    intros He Hv P D T.
    assert (Kok : forall rho ts', (forall p, In (Some p) (keys ts') -> In (Some p) (keys ts)) -> forall p, In (Some p) (keys ts') -> kok rho p).
    { intros rho ts' Hi [y k] Hp. destruct (Hv y k (Hi _ Hp)). split; cbn; [lia|right; lia]. }
    set (tl := map (fun p => snd (fst p)) ps) in *.
    assert (Itl : forall p, In (Some p) (keys tl) -> In (Some p) (keys ts)).
    { intros p Hp. apply total_in. rewrite <- T. apply in_map_iff in Hp. destruct Hp as (t & E1 & Ht). rewrite <- E1.
      assert (Fn : List.Forall2 (neat lit) (map fst3 ps) tl) by (unfold tl; clear - P; induction P as [|q qs Hq _ IHq]; constructor; auto; eapply prim_neat; exact Hq).
      assert (Dn : NoDup (keys tl)) by (unfold tl, keys; now rewrite map_map). destruct (neat_total lit _ tl Fn Dn t Ht). lia. }
    intros rho. apply is_function_now. intros t.
    assert (Fe : ev toR e (upd rho x t) (RtoC (total_of (dval toR) (map snd ps) (upd rho x t x)))).
    { rewrite <- (prims_value lit ok toR IL EX HR x top Hok ps _ P). fold tl.
      rewrite <- csum_rsum by (apply Kok; exact Itl). rewrite (csum_totals _ tl ts T). eapply ev_poly_conv; eauto. }
    unfold upd in Fe at 2. now rewrite String.eqb_refl in Fe.
  Qed.
  Lemma continuous_total l t : Forall (fun i : item => 1 <= degree i) l -> continuous (total_of (dval toR) l) t.
  Proof.
    intros H. induction H as [|i l Hi H IH]; [apply continuous_const|].
    apply (continuous_plus (dval toR i) (total_of (dval toR) l)); [|exact IH].
    unfold dval. apply (continuous_scal_r (toR (coef i)) (fun t => IZR (degree i) * powerRZ t (degree i - 1))%R).
    apply (continuous_scal_r (IZR (degree i)) (fun t => powerRZ t (degree i - 1))).
    destruct (Z.eq_dec (degree i) 1) as [->|D1]; [apply continuous_const|].
    apply (ex_derive_continuous (K := R_AbsRing) (V := R_NormedModule)). eexists. apply derive_powerRZ; [lia|right; lia].
  Qed.
  Lemma integral_total l a b : Forall (fun i : item => 1 <= degree i) l ->
    is_RInt (total_of (dval toR) l) a b (total_of (ival toR) l b - total_of (ival toR) l a)%R.
  Proof.
    intros H. apply (is_RInt_derive (total_of (ival toR) l) (total_of (dval toR) l)).
    - intros t _. now apply derive_total.
    - intros t _. now apply continuous_total.
  Qed.
  Lemma total_zero l : Forall (fun i : item => 1 <= degree i) l -> total_of (ival toR) l 0 = 0%R.
  Proof.
    intros H. unfold total_of. induction H as [|i l Hi H IH]; [reflexivity|]. cbn [fold_right]. rewrite IH. unfold ival.
    rewrite powerRZ_pos, pow_i by lia. ring.
  Qed.
  Lemma rest_zero rest : Forall proper rest -> NoDup (ikeys rest) -> (forall j, total_of (ival toR) rest (2 ^ j) = 0%R) -> rest = [].
  Proof.
    intros P Hn H0. set (l := map (fun i => (toR (coef i), Z.to_nat (degree i))) rest).
    assert (K : l = []).
    { apply (psum_zero (fun t => exists j, t = (2 ^ j)%R)) with (n := length l); auto.
      - exists 0%nat. reflexivity.
      - intros t (j & ->). exists (S j). reflexivity.
      - intros t (j & ->). rewrite <- (H0 j). unfold l, psum, total_of, ival. clear - P.
        induction P as [|i rest (_ & _ & Hi & _) P IH]; [reflexivity|]. cbn [map fold_right fst snd]. rewrite IH. now rewrite powerRZ_pos by lia.
      - unfold l. apply Forall_map. eapply Forall_impl; [|exact P]. intros i (_ & B & _). cbn. eapply big_R; eauto.
      - unfold l. rewrite map_map. cbn [snd]. clear - P Hn. induction P as [|i rest (_ & _ & D1 & D2) P IH]; cbn; [constructor|].
        cbn in Hn. apply NoDup_cons_iff in Hn. destruct Hn as [N1 N2]. constructor; [|now apply IH]. intros K. apply N1. apply in_map_iff in K. destruct K as (j & K1 & K2).
        rewrite Forall_forall in P. destruct (P j K2) as (_ & _ & J1 & J2). apply in_map_iff. exists j. split; [|exact K2].
        rewrite (surjective_pairing (ikey j)), (surjective_pairing (ikey i)), J2, D2. unfold degree in *. f_equal. lia. }
    unfold l in K. now destruct rest.
  Qed.
End Values.

Lemma definite_is_fun {num} {N : NumOps num} (e : expr num) x a b r s : definite_is e x a b r -> definite_is e x a b s -> r = s.
Proof.
  intros (n & H) (m & K). specialize (H (n + m)%nat ltac:(lia)). specialize (K (n + m)%nat ltac:(lia)). congruence.
Qed.

(** With exact numbers the result between any two bounds is the integral
    exactly if the number of terms is a power of two. *)
Theorem c75_exact : forall (num : Type) (N : NumOps num) lit ok, IntLits N lit ok ->
  forall toR, Exact N toR -> (forall c z, lit c z -> toR c = IZR z) -> (forall c d k, lit d k -> n_pow_exact c d = true) ->
  forall top, ok top -> Reciprocals N lit top ->
  forall post (e : expr num) ts x, poly lit ok false post e ts -> sum_or_difference e ->
  ok (weight ts) -> two_left ts -> in_one_variable x top ts -> x <> "C" ->
  (forall a b, exists v, definite_is e x (EReal a) (EReal b) (EReal v)) /\
  ((forall a b v rho f, definite_is e x (EReal a) (EReal b) (EReal v) -> integrand toR x rho (toR a) (toR b) e f ->
      is_RInt f (toR a) (toR b) (toR v)) <->
   exists i, terms_left ts = (2 ^ i)%nat).
Proof.
  intros num N lit ok IL toR EX HR PE top Hok RC post e ts x He Hs Hw H2 Hv Hx.
  destruct (definite_poly lit ok IL top Hok RC x post e ts Hx He Hs Hw H2 Hv) as (ps & first & rest & g & C & P & D & T & Q & K & Lf & Tg & Ag & R).
  assert (Pr : Forall (proper lit x) (map snd ps)).
  { clear - P IL Hok RC. destruct RC as [R1 R2 R3]. induction P as [|q qs Hq _ IHq]; constructor; auto.
    split; [eapply prim_wf; eauto|]. split; [eapply prim_big; eauto|]. exact (prim_degree lit x top _ _ _ Hq). }
  pose proof (Permutation_Forall (Permutation_sym Q) Pr) as Pr'. apply Forall_app in Pr'. destruct Pr' as [Pf Pre].
  assert (Deg : forall l, Forall (proper lit x) l -> Forall (fun i => 1 <= degree i) l) by (intros l F; eapply Forall_impl; [|exact F]; intros i Hi; apply Hi).
  assert (Val : forall a b, exists v, definite_is e x (EReal a) (EReal b) (EReal v) /\
            toR v = (total_of (ival toR) first (toR b) - total_of (ival toR) first (toR a))%R).
  { intros a b. destruct (n_eqb a b) eqn:E.
    - exists (n_of_Z 0). split; [now apply definite_same|]. apply (ex_eqb N toR EX) in E. rewrite E, (ex_of_Z N toR EX). ring.
    - eexists. split; [apply R; exact E|]. rewrite (ex_sub N toR EX).
      rewrite !(value_first lit toR EX HR PE x _ first g Pf Tg). reflexivity. }
  assert (Fun : forall rho, is_function toR x rho e (fun t => total_of (dval toR) (map snd ps) t)) by exact (poly_function lit ok toR IL EX HR x top Hok false post e ts ps He Hv P D T).
  assert (Int : forall a b rho f, integrand toR x rho a b e f ->
            is_RInt f a b (total_of (ival toR) (first ++ rest) b - total_of (ival toR) (first ++ rest) a)%R).
  { intros a b rho f Hf. rewrite !(total_of_perm _ _ _ _ Q). eapply is_RInt_ext; [|apply integral_total; apply Deg; exact Pr].
    intros t Ht. destruct (Hf t) as [F1 _]; [lra|]. specialize (Fun (upd rho x t)).
    pose proof (locally_singleton _ _ (is_function_unique toR x _ e _ _ Fun F1)) as V. cbv beta in V. unfold upd in V. rewrite String.eqb_refl in V. exact V. }
  split; [intros a b; destruct (Val a b) as (v & Hv' & _); eauto|]. split.
  - intros A. enough (Z : rest = []).
    { exists (Nat.log2 (terms_left ts)). rewrite <- Lf, <- K. rewrite Z, app_nil_r in Q. apply Permutation_length in Q. now rewrite map_length in Q. }
    apply (rest_zero lit ok toR IL EX HR x); [exact Pre| |].
    + pose proof (prim_nodup lit top x ps P D) as Dk. apply (Permutation_NoDup (Permutation_map ikey (Permutation_sym Q))) in Dk.
      rewrite map_app in Dk. apply nodup_app in Dk. apply Dk.
    + intros j. destruct (Val (n_of_Z 0) (n_of_Z (2 ^ Z.of_nat j))) as (v & Dv & Ev).
      assert (F : integrand toR x (fun _ => 0%R) (toR (n_of_Z 0)) (toR (n_of_Z (2 ^ Z.of_nat j))) e (fun t => total_of (dval toR) (map snd ps) t)).
      { intros t _. split; [apply Fun|]. apply continuous_total, Deg, Pr. }
      pose proof (A _ _ _ _ _ Dv F) as A1. pose proof (Int _ _ _ _ F) as A2.
      apply (is_RInt_unique (V := R_CompleteNormedModule)) in A1. apply (is_RInt_unique (V := R_CompleteNormedModule)) in A2. rewrite A1, Ev, !(ex_of_Z N toR EX) in A2.
      rewrite !total_of_app in A2. rewrite !(total_zero toR) in A2 by (apply Deg; assumption). rewrite <- pow_IZR in A2. lra.
  - intros (i & E) a b v rho f Dv Hf. destruct (Val a b) as (v' & Dv' & Ev). pose proof (definite_is_fun _ _ _ _ _ _ Dv Dv') as E'. injection E' as ->.
    assert (Z : rest = []).
    { pose proof (Permutation_length Q) as L. rewrite map_length, app_length, K, Lf, E, Nat.log2_pow2 in L by lia. destruct rest; [reflexivity|cbn in L; lia]. }
    pose proof (Int _ _ _ _ Hf) as A. rewrite Z, app_nil_r in A. rewrite Ev. exact A.
Qed.
Print Assumptions c75_exact.

Lemma q_pow_exact c d k : q_int d k -> n_pow_exact c d = true.
Proof.
  intros H. unfold q_int in H. destruct (q_is_int_true d k) as [I1 _]; [apply Qeq_eqR in H; rewrite H; apply Q2R_Z|].
  cbn [n_pow_exact Q_ops]. now rewrite I1.
Qed.
Lemma q_value c z : q_int c z -> Q2R c = IZR z.
Proof. intros H. unfold q_int in H. apply Qeq_eqR in H. rewrite H. apply Q2R_Z. Qed.

(** The case of rational numbers. *)
Theorem c75_definite_partial : forall post (e : expr Q) ts x, poly q_int any false post e ts -> sum_or_difference e ->
  two_left ts -> in_one_variable x (2 ^ 22) ts -> x <> "C" ->
  (forall a b, exists v, definite_is e x (EReal a) (EReal b) (EReal v)) /\
  ((forall a b v rho f, definite_is e x (EReal a) (EReal b) (EReal v) -> integrand Q2R x rho (Q2R a) (Q2R b) e f ->
      is_RInt f (Q2R a) (Q2R b) (Q2R v)) <->
   exists i, terms_left ts = (2 ^ i)%nat).
Proof.
  intros post e ts x He Hs H2 Hv Hx.
  exact (c75_exact Q Q_ops q_int any q_ints Q2R Q_exact q_value q_pow_exact (2 ^ 22) I q_reciprocals post e ts x He Hs I H2 Hv Hx).
Qed.
Print Assumptions c75_definite_partial.

(** A term alone is always integrated right. *)
Theorem c75_term_value : forall (e : expr Q) t x, neat q_int e t -> in_one_variable x (2 ^ 22) [t] -> x <> "C" ->
  forall a b, exists v, definite_is e x (EReal a) (EReal b) (EReal v) /\
    forall rho f, integrand Q2R x rho (Q2R a) (Q2R b) e f -> is_RInt f (Q2R a) (Q2R b) (Q2R v).
Proof.
  intros e t x He Hv Hx a b.
  destruct (definite_term q_int any q_ints (2 ^ 22) I q_reciprocals x e t Hx He Hv) as (i & Hi & R).
  destruct q_reciprocals as [R1 R2 R3].
  assert (Pi : proper q_int x i).
  { split; [eapply prim_wf; eauto using q_ints; exact I|]. split; [eapply prim_big; eauto using q_ints; exact I|]. exact (prim_degree q_int x (2 ^ 22) _ _ _ Hi). }
  pose proof Pi as (W & B & Dg & Ei).
  assert (Fun : forall rho, is_function Q2R x rho e (dval Q2R i)).
  { intros rho. apply is_function_now. intros s.
    assert (Pn : poly q_int any false false e [t]) by (apply po_term; destruct He; [constructor|constructor|eapply tm_scaled; [| |apply ml_pre]]; eauto).
    assert (Kt : forall p, In (Some p) (keys [t]) -> kok (upd rho x s) p).
    { intros [y k] Hp. destruct (Hv y k Hp). split; cbn; [lia|right; lia]. }
    pose proof (ev_poly_conv q_int any Q2R q_value (upd rho x s) false false e [t] Pn Kt) as V.
    rewrite csum_rsum in V by exact Kt. cbn [rsum] in V. rewrite Rplus_0_r in V.
    rewrite (prim_value q_int any Q2R q_ints Q_exact q_value x (2 ^ 22) I e t i Hi) in V.
    unfold upd in V at 2. now rewrite String.eqb_refl in V. }
  assert (Int : forall rho f, integrand Q2R x rho (Q2R a) (Q2R b) e f -> is_RInt f (Q2R a) (Q2R b) (ival Q2R i (Q2R b) - ival Q2R i (Q2R a))%R).
  { intros rho f Hf. pose proof (integral_total Q2R [i] (Q2R a) (Q2R b) ltac:(repeat constructor; exact Dg)) as A.
    cbn [total_of fold_right] in A. rewrite !Rplus_0_r in A. eapply is_RInt_ext; [|exact A]. intros s Hs. destruct (Hf s) as [F1 _]; [lra|].
    pose proof (locally_singleton _ _ (is_function_unique Q2R x _ e _ _ (Fun (upd rho x s)) F1)) as V. cbv beta in V. unfold upd in V. rewrite String.eqb_refl in V.
    cbn [total_of fold_right]. rewrite Rplus_0_r. exact V. }
  destruct (n_eqb a b) eqn:E.
  - exists (n_of_Z 0). split; [now apply definite_same|]. intros rho f Hf. apply (ex_eqb Q_ops Q2R Q_exact) in E. rewrite E, (ex_of_Z Q_ops Q2R Q_exact). apply (is_RInt_point (V := R_NormedModule)).
  - eexists. split; [apply R; exact E|]. intros rho f Hf. rewrite (ex_sub Q_ops Q2R Q_exact).
    rewrite !(value_norm q_int Q2R Q_exact q_value q_pow_exact x _ i W B Dg Ei). eapply Int; eauto.
Qed.
Print Assumptions c75_term_value.

(** In doubles: the arithmetic of [integral_of], of the values at the bounds
    and of their difference is that of double. *)
Theorem c75_doubles : forall pw lg pwx lgx, let N := double_ops pw lg pwx lgx in
  forall post (e : expr double) ts x, poly d_int d_ok false post e ts -> sum_or_difference e ->
  weight ts <= 2 ^ 53 -> two_left ts -> in_one_variable x (2 ^ 22) ts -> x <> "C" ->
  exists l li first rest g,
    combined d_int l ts /\ length l = terms_left ts /\ List.Forall2 (integral_of x) l li /\
    Permutation (first ++ rest) li /\ length first = (2 ^ Nat.log2 (terms_left ts))%nat /\
    tree_over OAdd (Nat.log2 (terms_left ts)) first g /\
    forall a b, n_eqb a b = false -> exists u v,
      simplifies_to (written x a g) (EReal u) /\ simplifies_to (written x b g) (EReal v) /\
      definite_is e x (EReal a) (EReal b) (EReal (n_sub v u)).
Proof.
  intros pw lg pwx lgx N post e ts x He Hs Hw H2 Hv Hx.
  apply (c75_terms double N d_int d_ok (double_ints pw lg pwx lgx) (2 ^ 22)) with (post := post); auto.
  - unfold d_ok. lia.
  - apply d_reciprocals.
  - unfold d_ok. pose proof (weight_nonneg ts). lia.
Qed.
Print Assumptions c75_doubles.

(** x + x^2 + x^3 from 0 to 1: the result 7/12 lacks 1/2. *)
Definition three : expr Q := EAdd (EAdd (qv "x") (EExp (qv "x") (qr 2))) (EExp (qv "x") (qr 3)).
Definition three_terms : list monomial := map (fun k => (Some ("x", k), 1)) [1; 2; 3].
Lemma three_poly : poly q_int any false false three three_terms.
Proof.
  assert (T : forall k, 2 <= k -> poly q_int any false false (EExp (qv "x") (qr k)) [(Some ("x", k), 1)]).
  { intros k Hk. apply po_term, tm_power. constructor; [reflexivity|lia|lia]. }
  apply (po_add _ _ _ _ _ _ [(Some ("x", 1), 1); (Some ("x", 2), 1)] [(Some ("x", 3), 1)]); [|apply T; lia|right; left; reflexivity].
  apply (po_add _ _ _ _ _ _ [(Some ("x", 1), 1)] [(Some ("x", 2), 1)]); [|apply T; lia|left; reflexivity].
  apply po_term, tm_power. constructor.
Qed.
Lemma three_in : in_one_variable "x" (2 ^ 22) three_terms.
Proof. intros y k H. cbn in H. repeat (destruct H as [H|H]; [injection H as <- <-; split; [reflexivity|lia]|]). destruct H. Qed.
Lemma three_left : two_left three_terms.
Proof. exists (Some ("x", 1)), (Some ("x", 2)). split; [discriminate|]. split; discriminate. Qed.

Theorem c75_refuted : ~ C75_statement.
Proof.
  intros S. assert (K := S three three_terms "x" (poly_polynomial _ _ _ _ _ _ three_poly) three_in ltac:(discriminate)).
  destruct (c75_definite_partial false three three_terms "x" three_poly) as (_ & A).
  - eexists _, _. left. reflexivity.
  - exact three_left.
  - exact three_in.
  - discriminate.
  - destruct (proj1 A) as (i & E).
    + intros a b v rho f Dv Hf. destruct (K a b) as (v' & Dv' & Ev). pose proof (definite_is_fun _ _ _ _ _ _ Dv Dv') as E'. injection E' as ->. eapply Ev; eauto.
    + change (terms_left three_terms) with 3%nat in E. destruct i as [|[|i]]; [discriminate E|discriminate E|].
      rewrite !Nat.pow_succ_r' in E. pose proof (Nat.pow_nonzero 2 i ltac:(lia)). lia.
Qed.
Print Assumptions c75_refuted.
Lemma definite_mono {num} {N : NumOps num} n m (e v lo up : expr num) : (n <= m)%nat -> FuelProofs.le (integrate_with_bounds n e v lo up) (integrate_with_bounds m e v lo up).
Proof. intros H. unfold integrate_with_bounds. mono; auto using integ_mono, subst_mono, simp_mono. Qed.
Lemma definite_is_run {num} {N : NumOps num} n (e : expr num) x a b r : snd (integrate_with_bounds n e (EVar x) a b) = Ok (Some r) -> definite_is e x a b r.
Proof. intros H. exists n. intros m L. destruct (definite_mono n m e (EVar x) a b L) as [K|K]; congruence. Qed.
Example c75_three : definite_is three "x" (qr 0) (qr 1) (EReal (7 # 12)).
Proof. apply (definite_is_run 40). vm_compute. reflexivity. Qed.

(** 3*x^2 - (x + 5) + 7*x^4 from 1 to 3: four terms, the result is right. *)
Example c75_case : exists v, definite_is four "x" (qr 1) (qr 3) (EReal v) /\
  forall rho f, integrand Q2R "x" rho (Q2R (inject_Z 1)) (Q2R (inject_Z 3)) four f -> is_RInt f (Q2R (inject_Z 1)) (Q2R (inject_Z 3)) (Q2R v).
Proof.
  destruct (c75_definite_partial false four four_terms "x" four_poly) as (V & A).
  - eexists _, _. left. reflexivity.
  - exists (Some ("x", 1)), (Some ("x", 2)). split; [discriminate|]. split; discriminate.
  - intros y k H. cbn in H. repeat (destruct H as [H|H]; [first [discriminate H | injection H as <- <-; split; [reflexivity|lia]]|]). destruct H.
  - discriminate.
  - destruct (V (inject_Z 1) (inject_Z 3)) as (v & Dv). exists v. split; [exact Dv|]. intros rho f Hf.
    refine (proj2 A _ _ _ _ _ _ Dv Hf). exists 2%nat. reflexivity.
Qed.
Example c75_case_value : definite_is four "x" (qr 1) (qr 3) (EReal (1754 # 5)).
Proof. apply (definite_is_run 40). vm_compute. reflexivity. Qed.
Example c75_term_case : neat q_int (EMul (qr 6) (EExp (qv "x") (qr 2))) (Some ("x", 2), 6) /\ in_one_variable "x" (2 ^ 22) [(Some ("x", 2), 6)] /\
  definite_is (EMul (qr 6) (EExp (qv "x") (qr 2))) "x" (qr (-1)) (qr 2) (qr 18).
Proof.
  split; [|split].
  - apply nt_scaled; [reflexivity|lia|lia|]. constructor; [reflexivity|lia|lia].
  - intros y k H. cbn in H. destruct H as [H|[]]. injection H as <- <-. split; [reflexivity|lia].
  - apply (definite_is_run 40). vm_compute. reflexivity.
Qed.
