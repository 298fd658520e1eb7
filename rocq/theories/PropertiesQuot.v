(** Property C76: what Simplify does with a quotient of two products of
    integers and powers of variables, in exact arithmetic and in IEEE doubles. *)
From Coq Require Import String Bool Arith ZArith QArith Reals Lra Lia.
From Coquelicot Require Import Coquelicot.
From Coq Require Import List Permutation.
From Flocq Require Import Core BinarySingleNaN.
From Verif Require Import Base Num Expr Ghost Simplify Calculus Spec SpecPoly SpecProd SpecQuot QNum PowProofs TreeProofs MonadProofs FuelProofs PolyProofs ProdProofs ProdSem SemProofs DoubleNum QuotProofs PropertiesSimplify PropertiesPoly PropertiesProd PropertiesOperators.
Import ListNotations.
Open Scope string_scope.
Open Scope Z_scope.
Open Scope list_scope.

(** ** C76: Common factors of a quotient cancel *)
Definition C76_statement : Prop :=
  forall (num : Type) (N : NumOps num) lit ok, IntLits N lit ok -> signs N lit -> (forall z, ok z) ->
  forall (a b : expr num) fs gs, product lit a fs -> product lit b gs ->
  exists nl dl r n, snd (simp n true (EDiv a b)) = Ok r /\ fraction_of nl dl r /\ cancelled lit nl dl fs gs.

Lemma q_signs : signs Q_ops q_int.
Proof.
  intros c z H. unfold q_int in H. cbn [n_ltb n_of_Z Q_ops]. destruct (Z.ltb_spec z 0) as [L|L].
  - apply negb_true_iff. destruct (Qle_bool _ c) eqn:E; [|reflexivity]. apply Qle_bool_iff in E. rewrite H in E. unfold Qle in E. cbn in E. lia.
  - apply negb_false_iff. apply Qle_bool_iff. rewrite H. unfold Qle. cbn. lia.
Qed.
Lemma d_signs pw lg pwx lgx : signs (double_ops pw lg pwx lgx) d_int.
Proof.
  intros c z [Fc Rc]. unfold n0; cbn [n_ltb n_of_Z double_ops]. destruct (d_of_int 0) as [F0 R0]; [unfold d_ok; lia|].
  rewrite Bltb_correct, Rc, R0 by assumption. destruct (Z.ltb_spec z 0) as [L|L].
  - apply Rlt_bool_true. now apply IZR_lt.
  - apply Rlt_bool_false. now apply IZR_le.
Qed.

Lemma var_fac x : fac q_int (qv x) (Some x, 1).
Proof. apply fc_pow; [apply pw_var|lia]. Qed.
Lemma pow_fac x k : 1 < k -> fac q_int (EExp (qv x) (qr k)) (Some x, k).
Proof. intros K. apply fc_pow; [|lia]. apply pw_exp; [reflexivity|lia|lia]. Qed.
Lemma num_fac z : z <> 0 -> z <> 1 -> fac q_int (qr z) (None, z).
Proof. intros H0 H1. apply fc_lit; [reflexivity|assumption|assumption]. Qed.

(** x / x^2 stays x / x^2. *)
Theorem c76_refuted : ~ C76_statement.
Proof.
  intros S. destruct (S Q Q_ops q_int any q_ints q_signs (fun _ => I) (qv "x") (EExp (qv "x") (qr 2)) [(Some "x", 1)] [(Some "x", 2)])
    as (nl & dl & r & n & Hr & Hf & ca & cb & nv & tn & td & _ & _ & Pn & Fn & _ & _ & Fd & _ & _ & H).
  - apply pd_fac, var_fac.
  - apply pd_fac, pow_fac. lia.
  - assert (R : r = EDiv (qv "x") (EExp (qv "x") (qr 2))).
    { symmetry. refine (run_unique 20 n true _ _ r [] _ Hr). vm_compute. reflexivity. }
    subst r. destruct (H "x") as [_ H2]. clear H. unfold fraction_of in Hf. destruct dl as [|e dl].
    + inversion Fd; subst. cbn in H2. discriminate.
    + destruct Hf as (p & q & E & _ & d & T). injection E as <- <-.
      remember (e :: dl) as el eqn:El. remember (EExp (qv "x") (qr 2)) as r eqn:Er.
      destruct T as [d e'|d l1 l2 u v H1' H2']; [|discriminate Er]. injection El as <- <-. subst e'.
      inversion Fd as [|? f ? fl Hf Fl]; subst. inversion Fl; subst. inversion Hf as [|p x k Hp K]; subst. inversion Hp as [|x' c k' Hc K0 K1]; subst.
      unfold q_int, qr in Hc. cbn in Hc. assert (k = 2) by (apply inject_Z_injective; rewrite <- Hc; reflexivity). subst k. discriminate H2.
Qed.
Print Assumptions c76_refuted.

(** When the exponents are equal, the power stays with exponent 0. *)
Theorem c76_zero_power : forall n r,
  snd (simp n true (EDiv (EMul (EExp (qv "x") (qr 2)) (qv "y")) (EExp (qv "x") (qr 2)))) = Ok r ->
  r = EMul (EExp (qv "x") (qr 0)) (qv "y").
Proof. intros n r H. symmetry. refine (run_unique 20 n true _ _ r [] _ H). vm_compute. reflexivity. Qed.
Print Assumptions c76_zero_power.
Example c76_zero_power_case : exists n r,
  snd (simp n true (EDiv (EMul (EExp (qv "x") (qr 2)) (qv "y")) (EExp (qv "x") (qr 2)))) = Ok r.
Proof. exists 20%nat. eexists. vm_compute. reflexivity. Qed.

(** When a plain variable has cancelled before the numbers meet, there are two
    numbers in the result: (x*6)/(x*3) becomes (1/3)*6. *)
Theorem c76_two_numbers : forall n r,
  snd (simp n true (EDiv (EMul (qv "x") (qr 6)) (EMul (qv "x") (qr 3)))) = Ok r ->
  r = EMul (EReal (1 # 3)%Q) (qr 6).
Proof. intros n r H. symmetry. refine (run_unique 20 n true _ _ r [] _ H). vm_compute. reflexivity. Qed.
Print Assumptions c76_two_numbers.
Example c76_two_numbers_case : exists n r,
  snd (simp n true (EDiv (EMul (qv "x") (qr 6)) (EMul (qv "x") (qr 3)))) = Ok r.
Proof. exists 20%nat. eexists. vm_compute. reflexivity. Qed.

(** Proved: for dividends and divisors of the class of C69 with [cancelling]
    factors.  The exponents are subtracted, a variable stays on one side only,
    and the numbers become one number of the dividend, the machine's quotient,
    left out if it is 1; no step is flagged.  Missing: the cases that [cancelling]
    excludes (for which the theorems above show what happens), quotients of
    two numbers (C11) and products outside the class of C69. *)
Theorem c76_cancels_partial : forall (num : Type) (N : NumOps num) lit ok, IntLits N lit ok -> signs N lit ->
  forall prefer (a b : expr num) fs gs, easy_product lit a fs -> easy_product lit b gs ->
  (forall n, ok (amount n fs)) -> (forall n, ok (amount n gs)) ->
  cancelling fs gs -> (exists x, In (Some x) (names (fs ++ gs))) ->
  exists nl dl r, always prefer (EDiv a b) r /\ fraction_of nl dl r /\ cancelled lit nl dl fs gs.
Proof.
  intros num N lit ok IL SG prefer a b fs gs Ha Hb Wa Wb Hc Hx.
  destruct (quotient_yields lit ok IL SG prefer a b fs gs Ha Hb Wa Wb Hc Hx) as (nl & dl & r & Y & F & C).
  exists nl, dl, r. split; [now apply yields_always|]. auto.
Qed.
Print Assumptions c76_cancels_partial.

(** ** The value *)
(** The machine divides the literals [za] and [zb] without rounding. *)
Definition exact_quotient {num} (N : NumOps num) (lit : num -> Z -> Prop) (toR : num -> R) (za zb : Z) : Prop :=
  forall ca cb, lit ca za -> lit cb zb ->
    toR (n_div ca cb) = (IZR za / IZR zb)%R /\ (n_eqb (n_div ca cb) n1 = true -> za = zb).

Section Value.
  Context {num : Type} {N : NumOps num}.
  Variables (lit : num -> Z -> Prop) (ok : Z -> Prop).
  Hypothesis IL : IntLits N lit ok.
  Variable toR : num -> R.
  Hypothesis litR : forall c z, lit c z -> toR c = IZR z.
  Variable rho : env.

  Definition cmul (vs : list C) : C := fold_right Cmult (RtoC 1) vs.
  Lemma cmul_app u v : cmul (u ++ v) = Cmult (cmul u) (cmul v).
  Proof. induction u as [|x u IH]; cbn [app cmul fold_right]; [unfold cmul; cbn; ring|]. fold (cmul (u ++ v)) (cmul u). rewrite IH. ring. Qed.
  Lemma cmul_perm u v : Permutation u v -> cmul u = cmul v.
  Proof. induction 1; cbn [cmul fold_right]; unfold cmul in *; cbn [fold_right]; [reflexivity|congruence|ring|congruence]. Qed.
  Lemma ev_tree d l t vs : tree_over OMul d l t -> Forall2 (fun e v => ev toR e rho v) l vs -> ev toR t rho (cmul vs).
  Proof.
    intros H. revert vs. induction H as [d e|d l1 l2 a b H1 IH1 H2 IH2]; intros vs Hl.
    - inversion Hl as [|? u ? l' Hu Hn]; subst. inversion Hn; subst. cbn [cmul fold_right]. now replace (Cmult u (RtoC 1)) with u by ring.
    - apply Forall2_app_inv_l in Hl. destruct Hl as (t1 & t2 & F1 & F2 & ->). cbn [ev]. exists (cmul t1), (cmul t2). rewrite cmul_app. auto.
  Qed.
  Lemma num_one : lit n1 1.
  Proof. apply (il_of_Z _ _ _ IL). eapply (il_ok_le _ _ _ IL 2); [apply (il_ok_2 _ _ _ IL)|lia]. Qed.
  Lemma ev_or_one l t vs : product_or_one l t -> Forall2 (fun e v => ev toR e rho v) l vs -> ev toR t rho (cmul vs).
  Proof.
    destruct l as [|e l]; cbn [product_or_one]; intros H F.
    - inversion F; subst. cbn. now rewrite (litR _ _ num_one).
    - destruct H as (d & H). eapply ev_tree; eauto.
  Qed.
  Lemma ev_facs l fl : Forall2 (fac lit) l fl -> Forall2 (fun e v => ev toR e rho v) l (map (fun f => fval rho (fst f) (snd f)) fl).
  Proof. intros H. induction H as [|e f l fl Hf H IH]; cbn [map]; constructor; [now apply (ev_fac lit toR litR rho)|exact IH]. Qed.
  Lemma cmul_facs fl : cmul (map (fun f => fval rho (fst f) (snd f)) fl) = cprod rho fl.
  Proof. induction fl as [|f fl IH]; [reflexivity|]. cbn [map cprod]. rewrite <- IH. reflexivity. Qed.

  Lemma cpow_nat_zero z n : z <> RtoC 0 -> cpow_nat z n <> RtoC 0.
  Proof.
    intros H. induction n as [|n IH]; cbn [cpow_nat].
    - intros K. apply RtoC_inj in K. lra.
    - now apply Cmult_neq_0.
  Qed.
  Lemma cprod_zero fs : List.Forall fine fs -> (forall x, In (Some x) (names fs) -> rho x <> 0%R) -> cprod rho fs <> RtoC 0.
  Proof.
    intros F H. induction F as [|f fs Hf F IH]; cbn [cprod].
    - intros K. apply RtoC_inj in K. lra.
    - apply Cmult_neq_0; [|apply IH; intros x Hx; apply H; now right]. destruct f as [[x|] k]; cbn [fst snd fval].
      + apply cpow_nat_zero. intros K. apply RtoC_inj in K. apply (H x); [now left|exact K].
      + intros K. apply RtoC_inj in K. unfold fine in Hf. cbn in Hf. apply eq_IZR in K. contradiction.
  Qed.
  Lemma cprod_nonzero fs : List.Forall fine fs -> cprod rho fs <> RtoC 0 -> forall x, In (Some x) (names fs) -> rho x <> 0%R.
  Proof.
    intros F. induction F as [|f fs Hf F IH]; cbn [cprod]; intros H x Hx; [destruct Hx|]. destruct Hx as [Hx|Hx].
    - intros K. apply H. destruct f as [n k]. cbn in Hx. subst n. unfold fine in Hf. cbn in Hf. cbn [fst snd fval]. rewrite K.
      destruct (Z.to_nat k) as [|m] eqn:E; [lia|]. cbn [cpow_nat]. ring.
    - apply IH; [|exact Hx]. intros K. apply H. rewrite K. ring.
  Qed.

  Lemma quotient_value a b fs gs nl dl r : product lit a fs -> product lit b gs ->
    fraction_of nl dl r -> cancelled lit nl dl fs gs ->
    (amount None gs = 1 \/ exact_quotient N lit toR (amount None fs) (amount None gs)) ->
    forall v, ev toR (EDiv a b) rho v -> ev toR r rho v.
  Proof.
    intros Pa Pb Hf (ca & cb & nv & tn & td & La & Lb & Pn & Fn & Dn & Nn & Fd & Dd & Nd & Hx) Hq v (p & q & Vp & Vq & Hq0 & ->).
    pose proof (ev_fun toR _ _ _ _ Vp (ev_product lit toR litR rho a fs Pa)) as ->.
    pose proof (ev_fun toR _ _ _ _ Vq (ev_product lit toR litR rho b gs Pb)) as ->.
    pose proof (product_fine lit _ _ Pa) as Ga. pose proof (product_fine lit _ _ Pb) as Gb.
    pose proof (facs_fine lit _ _ Fn) as Gn. pose proof (facs_fine lit _ _ Fd) as Gd.
    set (za := amount None fs) in *. set (zb := amount None gs) in *.
    assert (Za : za <> 0) by exact (amount_fine None fs Ga). assert (Zb : zb <> 0) by exact (amount_fine None gs Gb).
    assert (Key : Cmult (cprod rho fs) (Cmult (cprod rho td) (RtoC (IZR zb))) = Cmult (cprod rho gs) (Cmult (cprod rho tn) (RtoC (IZR za)))).
    { pose proof (cprod_amounts rho _ (fs ++ td ++ [(None, zb)]) (gs ++ tn ++ [(None, za)]) (le_n _)) as K.
      rewrite !cprod_app in K. cbn [cprod fval fst snd] in K.
      replace (Cmult (RtoC (IZR zb)) (RtoC 1)) with (RtoC (IZR zb)) in K by ring. replace (Cmult (RtoC (IZR za)) (RtoC 1)) with (RtoC (IZR za)) in K by ring.
      apply K.
      - apply List.Forall_app. split; [assumption|]. apply List.Forall_app. split; [assumption|]. constructor; [exact Zb|constructor].
      - apply List.Forall_app. split; [assumption|]. apply List.Forall_app. split; [assumption|]. constructor; [exact Za|constructor].
      - intros [x|]; rewrite !amount_app, !amount_cons, !amount_nil; cbn [fst snd name_eqb join unit].
        + destruct (Hx x) as [H1 H2]. rewrite H1, H2. pose proof (amount_fine (Some x) fs Ga). pose proof (amount_fine (Some x) gs Gb). cbn -[amount] in *. lia.
        + rewrite (amount_notin _ _ Nn), (amount_notin _ _ Nd). cbn [unit]. fold za zb. ring. }
    assert (Td : cprod rho td <> RtoC 0).
    { apply (cprod_zero td Gd). intros x Hi. apply (cprod_nonzero gs Gb Hq0).
      destruct (in_dec name_dec (Some x) (names gs)) as [|Hn]; [assumption|]. exfalso.
      pose proof (amount_pos _ _ Gd Hi) as K. rewrite (proj2 (Hx x)), (amount_notin _ _ Hn) in K. cbn [unit] in K.
      pose proof (amount_fine (Some x) fs Ga). cbn -[amount] in *. lia. }
    assert (Rb : RtoC (IZR zb) <> RtoC 0) by (intros K; apply RtoC_inj in K; apply eq_IZR in K; contradiction).
    set (c := if zb =? 1 then ca else n_div ca cb).
    assert (Vc : toR c = (IZR za / IZR zb)%R /\ (n_eqb c n1 = true -> za = zb)).
    { unfold c. destruct (Z.eqb_spec zb 1) as [E|E].
      - split; [rewrite (litR _ _ La), E; field|]. intros K. rewrite (il_eqb _ _ _ IL _ _ _ _ La num_one) in K. apply Z.eqb_eq in K. fold za in K. lia.
      - destruct Hq as [Hq|Hq]; [contradiction|]. exact (Hq ca cb La Lb). }
    assert (Vn : exists w, Cmult w (RtoC (IZR zb)) = Cmult (cprod rho tn) (RtoC (IZR za)) /\ forall p, product_or_one nl p -> ev toR p rho w).
    { assert (C : exists vc, Forall2 (fun e v => ev toR e rho v) (coefficient zb ca cb) vc /\ Cmult (cmul vc) (RtoC (IZR zb)) = RtoC (IZR za)).
      { unfold coefficient. cbv zeta. fold c. destruct (n_eqb c n1) eqn:E.
        - exists []. split; [constructor|]. cbn. rewrite (proj2 Vc eq_refl). ring.
        - exists [RtoC (toR c)]. split; [constructor; [reflexivity|constructor]|]. cbn [cmul fold_right]. rewrite (proj1 Vc).
          replace (Cmult (RtoC (IZR za / IZR zb)) (RtoC 1)) with (RtoC (IZR za / IZR zb)) by ring. rewrite <- RtoC_mult. f_equal. field.
          intros K. apply Rb. now rewrite K. }
      destruct C as (vc & Fc & Ec). pose proof (Forall2_app Fc (ev_facs _ _ Fn)) as F.
      destruct (Permutation_Forall2 (Permutation_sym Pn) F) as (vs & Pv & Fv). exists (cmul vs). split; [|intros p Hp; eapply ev_or_one; eauto].
      rewrite <- (cmul_perm _ _ Pv), cmul_app, cmul_facs.
      replace (Cmult (Cmult (cmul vc) (cprod rho tn)) (RtoC (IZR zb))) with (Cmult (Cmult (cmul vc) (RtoC (IZR zb))) (cprod rho tn)) by ring. rewrite Ec. ring. }
    destruct Vn as (w & Ew & Vw).
    assert (Ev : Cdiv (cprod rho fs) (cprod rho gs) = Cdiv w (cprod rho td)).
    { assert (K : Cmult (cprod rho fs) (cprod rho td) = Cmult (cprod rho gs) w).
      { assert (K : Cmult (Cmult (cprod rho fs) (cprod rho td)) (RtoC (IZR zb)) = Cmult (Cmult (cprod rho gs) w) (RtoC (IZR zb))).
        { transitivity (Cmult (cprod rho fs) (Cmult (cprod rho td) (RtoC (IZR zb)))); [ring|]. rewrite Key, <- Ew. ring. }
        transitivity (Cmult (Cmult (Cmult (cprod rho fs) (cprod rho td)) (RtoC (IZR zb))) (Cinv (RtoC (IZR zb)))); [field; exact Rb|]. rewrite K. field. exact Rb. }
      transitivity (Cdiv (Cmult (cprod rho fs) (cprod rho td)) (Cmult (cprod rho gs) (cprod rho td))); [field; split; assumption|]. rewrite K. field. split; assumption. }
    rewrite Ev. unfold fraction_of in Hf. destruct dl as [|e dl].
    - inversion Fd; subst td. cbn [cprod]. replace (Cdiv w (RtoC 1)) with w by (field; intros K; apply RtoC_inj in K; lra). now apply Vw.
    - destruct Hf as (p & q & -> & Hp & d & T). exists w, (cprod rho td). split; [now apply Vw|]. split; [|auto].
      rewrite <- cmul_facs. eapply ev_tree; [exact T|]. now apply ev_facs.
  Qed.
End Value.

(** The value is kept, for all values of the variables for which the quotient
    has one, if the quotient of the numbers is exact. *)
Theorem c76_value : forall (num : Type) (N : NumOps num) lit ok, IntLits N lit ok -> signs N lit ->
  forall toR, (forall c z, lit c z -> toR c = IZR z) ->
  forall prefer (a b : expr num) fs gs, easy_product lit a fs -> easy_product lit b gs ->
  (forall n, ok (amount n fs)) -> (forall n, ok (amount n gs)) ->
  cancelling fs gs -> (exists x, In (Some x) (names (fs ++ gs))) ->
  amount None gs = 1 \/ exact_quotient N lit toR (amount None fs) (amount None gs) ->
  exists r, always prefer (EDiv a b) r /\
    (forall rho v, ev toR (EDiv a b) rho v -> ev toR r rho v) /\
    (forall rho v w, ev toR r rho v -> ev toR b rho w -> w <> RtoC 0 -> ev toR (EDiv a b) rho v).
Proof.
  intros num N lit ok IL SG toR HR prefer a b fs gs Ha Hb Wa Wb Hc Hx Hq.
  destruct (c76_cancels_partial num N lit ok IL SG prefer a b fs gs Ha Hb Wa Wb Hc Hx) as (nl & dl & r & A & F & C).
  exists r. split; [exact A|]. apply easy_is_product in Ha. apply easy_is_product in Hb.
  assert (K : forall rho v, ev toR (EDiv a b) rho v -> ev toR r rho v)
    by (intros rho v; exact (quotient_value lit ok IL toR HR rho a b fs gs nl dl r Ha Hb F C Hq v)).
  split; [exact K|]. intros rho v w Hr Hw W0.
  assert (D : ev toR (EDiv a b) rho (Cdiv (cprod rho fs) w)).
  { exists (cprod rho fs), w. split; [now apply (ev_product lit toR HR)|]. auto. }
  now rewrite (ev_fun toR _ _ _ _ Hr (K _ _ D)).
Qed.
Print Assumptions c76_value.

(** Division is exact in exact arithmetic, and for doubles if the quotient is
    an integer of at most 2^53. *)
Lemma exact_divides {num} (N : NumOps num) (lit : num -> Z -> Prop) toR (za zb : Z) : Exact N toR -> (forall c z, lit c z -> toR c = IZR z) -> zb <> 0 ->
  exact_quotient N lit toR za zb.
Proof.
  intros HE HR Hz ca cb Ha Hb. assert (Rb : IZR zb <> 0%R) by (intros K; apply eq_IZR in K; contradiction).
  assert (V : toR (n_div ca cb) = (IZR za / IZR zb)%R) by (rewrite (ex_div _ _ HE), (HR _ _ Ha), (HR _ _ Hb); [reflexivity|now rewrite (HR _ _ Hb)]).
  split; [exact V|]. intros E. apply (ex_eqb _ _ HE) in E. unfold n1 in E. rewrite V, (ex_of_Z _ _ HE) in E. apply eq_IZR.
  replace (IZR za) with (IZR za / IZR zb * IZR zb)%R by (field; exact Rb). rewrite E. ring.
Qed.
Lemma double_divides pw lg pwx lgx za zb : zb <> 0 -> (zb | za) -> Z.abs za <= 2 ^ 53 ->
  exact_quotient (double_ops pw lg pwx lgx) d_int B2R za zb.
Proof.
  intros Hz [k ->] Hk ca cb [Fa Ra] [Fb Rb].
  assert (Rz : IZR zb <> 0%R) by (intros K; apply eq_IZR in K; contradiction).
  assert (Q : (IZR (k * zb) / IZR zb)%R = IZR k) by (rewrite mult_IZR; field; exact Rz).
  assert (Ok : d_ok k) by (unfold d_ok; nia).
  cbn [n_div n_eqb n_of_Z double_ops]. unfold n1. cbn [n_of_Z double_ops].
  pose proof (Bdiv_correct 53 1024 d_prec d_max mode_NE ca cb) as K. rewrite Ra, Rb, Q, (d_round _ Ok), (d_small _ Ok), Fa in K.
  destruct (K Rz) as (K1 & K2 & _). rewrite Q. split; [exact K1|].
  destruct (d_of_int 1) as [F1 R1]; [unfold d_ok; lia|]. rewrite Beqb_correct, K1, R1; [|exact K2|exact F1].
  intros E. assert (k = 1); [|lia]. apply eq_IZR. destruct (Req_bool_spec (IZR k) 1); [assumption|discriminate].
Qed.

(** All of it for doubles, whatever pow and log2 compute: the number is
    the correctly rounded quotient, and the value is kept if the number of
    the divisor divides that of the dividend. *)
Theorem c76_doubles : forall pw lg pwx lgx, let N := double_ops pw lg pwx lgx in
  forall prefer (a b : expr double) fs gs, easy_product d_int a fs -> easy_product d_int b gs ->
  (forall n, Z.abs (amount n fs) <= 2 ^ 53) -> (forall n, Z.abs (amount n gs) <= 2 ^ 53) ->
  cancelling fs gs -> (exists x, In (Some x) (names (fs ++ gs))) ->
  exists nl dl r, always prefer (EDiv a b) r /\ fraction_of nl dl r /\ cancelled d_int nl dl fs gs /\
    ((amount None gs | amount None fs) -> forall rho v, ev B2R (EDiv a b) rho v -> ev B2R r rho v).
Proof.
  intros pw lg pwx lgx N prefer a b fs gs Ha Hb Wa Wb Hc Hx.
  pose proof (double_ints pw lg pwx lgx) as IL. pose proof (d_signs pw lg pwx lgx) as SG. fold N in IL, SG.
  destruct (c76_cancels_partial double N d_int d_ok IL SG prefer a b fs gs Ha Hb Wa Wb Hc Hx) as (nl & dl & r & A & F & C).
  exists nl, dl, r. split; [exact A|]. split; [exact F|]. split; [exact C|]. intros D rho v.
  apply (quotient_value d_int d_ok IL B2R (fun c z H => proj2 H) rho a b fs gs nl dl r); [now apply easy_is_product|now apply easy_is_product|exact F|exact C|].
  right. apply double_divides; [|exact D|apply Wa]. apply (amount_fine None). eapply product_fine, easy_is_product; eauto.
Qed.
Print Assumptions c76_doubles.

(** Property C52 for quotients: the operator / cancels. *)
Theorem c52_quotients : forall (num : Type) (N : NumOps num) lit ok, IntLits N lit ok -> signs N lit ->
  forall (a b : expr num) fs gs, easy_product lit a fs -> easy_product lit b gs ->
  (forall n, ok (amount n fs)) -> (forall n, ok (amount n gs)) ->
  cancelling fs gs -> (exists x, In (Some x) (names (fs ++ gs))) ->
  exists nl dl r, operator_gives ODiv a b r /\ fraction_of nl dl r /\ cancelled lit nl dl fs gs.
Proof.
  intros num N lit ok IL SG a b fs gs Ha Hb Wa Wb Hc Hx.
  destruct (c76_cancels_partial num N lit ok IL SG false a b fs gs Ha Hb Wa Wb Hc Hx) as (nl & dl & r & A & F).
  exists nl, dl, r. split; [now apply gives_always|exact F].
Qed.
Print Assumptions c52_quotients.

(** (y*x^5)*6 / ((4*x^3)*z). *)
Definition quot_top : expr Q := EMul (EMul (qv "y") (EExp (qv "x") (qr 5))) (qr 6).
Definition quot_bottom : expr Q := EMul (EMul (qr 4) (EExp (qv "x") (qr 3))) (qv "z").
Definition top_factors : list factor := [(Some "y", 1); (Some "x", 5); (None, 6)].
Definition bottom_factors : list factor := [(None, 4); (Some "x", 3); (Some "z", 1)].
Example c76_case : easy_product q_int quot_top top_factors /\ easy_product q_int quot_bottom bottom_factors /\
  cancelling top_factors bottom_factors /\ (exists x, In (Some x) (names (top_factors ++ bottom_factors))).
Proof.
  split; [|split; [|split]].
  - apply (ep_mul _ _ _ [(Some "y", 1); (Some "x", 5)] [(None, 6)]).
    + apply (ep_mul _ _ _ [(Some "y", 1)] [(Some "x", 5)]); [apply ep_fac, var_fac|apply ep_fac, pow_fac; lia|].
      left. intros n [<-|[]] [H|[]]. discriminate.
    + apply ep_fac, num_fac; discriminate.
    + left. intros n Hn [H|[]]. subst n. cbn in Hn. intuition discriminate.
  - apply (ep_mul _ _ _ [(None, 4); (Some "x", 3)] [(Some "z", 1)]).
    + apply (ep_mul _ _ _ [(None, 4)] [(Some "x", 3)]); [apply ep_fac, num_fac; discriminate|apply ep_fac, pow_fac; lia|].
      left. intros n [<-|[]] [H|[]]. discriminate.
    + apply ep_fac, var_fac.
    + left. intros n Hn [H|[]]. subst n. cbn in Hn. intuition discriminate.
  - split.
    + intros x. unfold amount, top_factors, bottom_factors. cbn [fold_right fst snd name_eqb unit join].
      destruct (String.eqb x "x") eqn:E1.
      * apply String.eqb_eq in E1. subst x. cbn. lia.
      * destruct (String.eqb x "y") eqn:E2; [apply String.eqb_eq in E2; subst x; cbn; lia|]. left. reflexivity.
    + right. right. intros x [H1 H2]. unfold amount, top_factors, bottom_factors in *. cbn [fold_right fst snd name_eqb unit join] in *.
      destruct (String.eqb x "x") eqn:E1; [apply String.eqb_eq in E1; subst x; cbn in H1; lia|].
      destruct (String.eqb x "y") eqn:E2; [apply String.eqb_eq in E2; subst x; cbn in H2; lia|]. discriminate H1.
  - exists "x". cbn. auto.
Qed.
Example c76_result : simp 20 true (EDiv quot_top quot_bottom) =
  ([], Ok (EDiv (EMul (EMul (qv "y") (EExp (qv "x") (qr 2))) (EReal (3 # 2)%Q)) (qv "z"))).
Proof. vm_compute. reflexivity. Qed.
