(** Properties C28-C30 for machine numbers: FindZeros on polynomials whose
    coefficients and exponents are exact integers, in particular in doubles. *)
From Coq Require Import String Bool Arith ZArith Znumtheory QArith Reals Lra Lia.
From Coquelicot Require Import Coquelicot.
From Coq Require Import List.
From Flocq Require Import Core BinarySingleNaN.
From Verif Require Import Base Num Expr Ghost Simplify Calculus FindZeros Spec SpecPoly QNum FuelProofs DoubleNum PropertiesSimplify ZerosProofs ZerosBound PropertiesZeros PropertiesPoly.
Import ListNotations.
Open Scope string_scope.
Open Scope Z_scope.
Open Scope list_scope.

(** [lit c z]: the number c is the integer z.  Rounding finds z again, and the
    sign test of FindZeros is right. *)
Record Rounds {num : Type} (N : NumOps num) (lit : num -> Z -> Prop) : Prop := {
  ro_round : forall c z, lit c z -> n_round c = Some z;
  ro_same : forall c z, lit c z -> n_eqb c (n_of_Z z) = true;
  ro_sign : forall c z, lit c z -> n_leb n0 c = (0 <=? z)
}.

(** ** Specification: integer polynomials, as in PropertiesZeros.v but over [lit] *)
Section IntPoly.
  Context {num : Type}.
  Variable lit : num -> Z -> Prop.

  Inductive ipower (x : string) : expr num -> nat -> Prop :=
  | ip_var : ipower x (EVar x) 1
  | ip_exp k n : lit k (Z.of_nat n) -> ipower x (EExp (EVar x) (EReal k)) n.
  Inductive imonomial (x : string) : expr num -> Z -> nat -> Prop :=
  | im_const c z : lit c z -> imonomial x (EReal c) z 0
  | im_power e n : ipower x e n -> imonomial x e 1 n
  | im_left c z e n : lit c z -> ipower x e n -> imonomial x (EMul (EReal c) e) z n
  | im_right c z e n : lit c z -> ipower x e n -> imonomial x (EMul e (EReal c)) z n.
  Inductive ipolynomial (x : string) : expr num -> list (Z * nat) -> Prop :=
  | ipo_mono e z n : imonomial x e z n -> ipolynomial x e [(z, n)]
  | ipo_add a b l m : ipolynomial x a l -> ipolynomial x b m -> ipolynomial x (EAdd a b) (l ++ m).
End IntPoly.

(** The sum of the magnitudes of the coefficients. *)
Definition magnitude (l : list (Z * nat)) : Z := fold_right (fun m s => Z.abs (fst m) + s) 0 l.

Definition wt (l : list Z) : Z := fold_right (fun z s => Z.abs z + s) 0 l.
Lemma wt_nonneg l : 0 <= wt l.
Proof. induction l as [|z l IH]; cbn [wt fold_right]; [lia|]. fold (wt l). lia. Qed.
Lemma wt_in z l : In z l -> Z.abs z <= wt l.
Proof.
  induction l as [|y l IH]; intros []; cbn [wt fold_right]; fold (wt l); pose proof (wt_nonneg l).
  - subst. lia.
  - specialize (IH H). lia.
Qed.
Lemma zadd_wt k z : forall l, wt (zadd_at k z l) <= Z.abs z + wt l.
Proof.
  induction k as [|k IH]; intros [|x l]; cbn [zadd_at wt fold_right]; try fold (wt l).
  - lia.
  - lia.
  - fold (wt (zadd_at k z [])). specialize (IH []). cbn [wt fold_right] in IH. lia.
  - fold (wt (zadd_at k z l)). specialize (IH l). lia.
Qed.
Lemma magnitude_nonneg l : 0 <= magnitude l.
Proof. induction l as [|m l IH]; cbn [magnitude fold_right]; [lia|]. fold (magnitude l). lia. Qed.
Lemma zcoefs_wt l : forall acc, wt (zcoefs l acc) <= magnitude l + wt acc.
Proof.
  induction l as [|m l IH]; intros acc; cbn [zcoefs fold_left magnitude fold_right]; [lia|].
  fold (zcoefs l (zadd_at (snd m) (fst m) acc)). fold (magnitude l).
  pose proof (IH (zadd_at (snd m) (fst m) acc)). pose proof (zadd_wt (snd m) (fst m) acc). lia.
Qed.

Section Extract.
  Context {num : Type} {N : NumOps num}.
  Variables (lit : num -> Z -> Prop) (ok : Z -> Prop).
  Hypothesis IL : IntLits N lit ok.
  Hypothesis RO : Rounds N lit.

  Inductive isum : expr num -> Z -> Prop :=
  | is_real c z : lit c z -> isum (EReal c) z
  | is_add a b y z : isum a y -> isum b z -> ok (y + z) -> isum (EAdd a b) (y + z).
  Local Lemma ok_le x y : ok x -> Z.abs y <= Z.abs x -> ok y.
  Proof. apply (il_ok_le _ _ _ IL). Qed.
  Local Lemma lit0 : lit n0 0.
  Proof. apply (il_of_Z _ _ _ IL). apply (ok_le 2); [apply (il_ok_2 _ _ _ IL)|lia]. Qed.
  Local Lemma lit1 : lit n1 1.
  Proof. apply (il_of_Z _ _ _ IL). apply (ok_le 2); [apply (il_ok_2 _ _ _ IL)|lia]. Qed.
  Lemma isum_literal e z : isum e z -> literal e.
  Proof. induction 1; cbn; auto. Qed.
  Lemma isum_fold e z : isum e z -> lit (fold_lit e) z.
  Proof. induction 1 as [c z H|a b y z Ha IHa Hb IHb Ho]; cbn [fold_lit fold2]; [exact H|]. now apply (il_add _ _ _ IL). Qed.
  Lemma isum_simp n prefer e z r : isum e z -> oks (simp n prefer e) r -> exists d, r = EReal d /\ lit d z.
  Proof.
    intros Hz H. apply literal_simp in H; [|now apply (isum_literal e z)].
    exists (fold_lit e). split; [exact H|now apply isum_fold].
  Qed.

  Definition imono_of (x : string) (e : expr num) (m : Z * nat) : Prop := imonomial lit x e (fst m) (snd m).
  Lemma imono_flat x e z n : imonomial lit x e z n -> flat OAdd e = [e].
  Proof. destruct 1 as [| ? ? P | |]; try reflexivity. destruct P; reflexivity. Qed.
  Lemma ipoly_flat x e l : ipolynomial lit x e l -> List.Forall2 (imono_of x) (flat OAdd e) l.
  Proof.
    induction 1 as [e z n H|a b l m Ha IHa Hb IHb].
    - rewrite (imono_flat _ _ _ _ H). repeat constructor. exact H.
    - cbn [flat binop_eqb]. apply Forall2_app; assumption.
  Qed.
  Lemma ipoly_terms x e l : ipolynomial lit x e l -> List.Forall2 (imono_of x) (terms_of e) l.
  Proof.
    intros H. pose proof (ipoly_flat _ _ _ H) as F. destruct H as [e z n H|a b l m Ha Hb].
    - unfold terms_of. destruct H as [| ? ? P | |]; try exact F. destruct P; exact F.
    - exact F.
  Qed.
  Lemma ipoly_nonempty x e l : ipolynomial lit x e l -> l <> [].
  Proof. induction 1 as [|a b l m Ha IHa Hb IHb]; [discriminate|]. destruct l; [congruence|discriminate]. Qed.

  Lemma classify_imono name x e m : imono_of x e m ->
    exists c x' k, classify name e = (c, x', k) /\ isum c (fst m) /\ lit k (Z.of_nat (snd m)) /\ (x' = x \/ x' = name).
  Proof.
    unfold imono_of. destruct m as [z n]. cbn [fst snd]. intros H. pose proof lit1 as L1. pose proof lit0 as L0.
    destruct H as [c z Hc|e n P|c z e n Hc P|c z e n Hc P]; [|destruct P as [|k n Hk]..].
    - exists (EReal c), name, n0. repeat split; auto. now constructor.
    - exists (real 1), x, n1. repeat split; auto. now constructor.
    - exists (real 1), x, k. repeat split; auto. now constructor.
    - exists (EReal c), x, n1. repeat split; auto. now constructor.
    - exists (EReal c), x, k. repeat split; auto. now constructor.
    - exists (EReal c), x, n1. repeat split; auto. now constructor.
    - exists (EReal c), x, k. repeat split; auto. now constructor.
  Qed.

  Lemma add_at_isum k c z : isum c z -> forall pos zl, List.Forall2 isum pos zl -> ok (Z.abs z + wt zl) ->
    List.Forall2 isum (add_at k c pos) (zadd_at k z zl).
  Proof.
    intros Hc. assert (H0 : isum (real 0) 0) by (constructor; exact lit0).
    induction k as [|k IH]; intros pos zl [|p y pos' zl' Hp F] Ho; cbn [add_at zadd_at]; cbn [wt fold_right] in Ho; try fold (wt zl') in Ho.
    - constructor; [|constructor]. replace z with (z + 0) by lia. constructor; auto. apply (ok_le _ _ Ho). lia.
    - constructor; [|exact F]. constructor; auto. apply (ok_le _ _ Ho). pose proof (wt_nonneg zl'). lia.
    - constructor; [exact H0|]. apply IH; [constructor|]. exact Ho.
    - constructor; [exact Hp|]. apply IH; [exact F|]. apply (ok_le _ _ Ho). pose proof (wt_nonneg zl'). lia.
  Qed.

  Lemma coefficients_ipoly x terms l : List.Forall2 (imono_of x) terms l ->
    forall name pos zl, (name = "" \/ name = x) -> List.Forall2 isum pos zl -> (pos = [] \/ top_sum pos) ->
    ok (magnitude l + wt zl) ->
    exists name' pos', coefficients terms name pos = ret (Some (name', pos')) /\
      List.Forall2 isum pos' (zcoefs l zl) /\ (pos' = [] \/ top_sum pos') /\ (l <> [] -> top_sum pos').
  Proof.
    induction 1 as [|e m terms l Hm F IH]; intros name pos zl Hn Hp Ht Ho; cbn [coefficients].
    - exists name, pos. repeat split; auto. congruence.
    - destruct (classify_imono name x e m Hm) as (c & x' & k & -> & Hc & Hk & Hx).
      rewrite (ro_round _ _ RO k _ Hk), (ro_same _ _ RO k _ Hk), (ro_sign _ _ RO k _ Hk).
      replace (0 <=? Z.of_nat (snd m)) with true by (symmetry; apply Z.leb_le; lia).
      assert (K3 : (if String.eqb name "" then x' else name) = x').
      { destruct (String.eqb name "") eqn:En; [reflexivity|]. apply String.eqb_neq in En.
        destruct Hn as [->| ->]; [congruence|]. destruct Hx; congruence. }
      rewrite K3, String.eqb_refl, Nat2Z.id. cbn [negb orb].
      cbn [magnitude fold_right] in Ho. fold (magnitude l) in Ho.
      pose proof (magnitude_nonneg l). pose proof (wt_nonneg zl).
      destruct (IH x' (add_at (snd m) c pos) (zadd_at (snd m) (fst m) zl)) as (n' & p' & H1 & H2 & H3 & H4).
      + destruct Hx as [->| ->]; auto.
      + apply add_at_isum; auto. apply (ok_le _ _ Ho). lia.
      + right. now apply add_at_top.
      + apply (ok_le _ _ Ho). pose proof (zadd_wt (snd m) (fst m) zl). pose proof (wt_nonneg (zadd_at (snd m) (fst m) zl)). lia.
      + exists n', p'. repeat split; auto. intros _.
        destruct H3 as [->|H3]; [|exact H3]. exfalso.
        apply Forall2_length in H2. cbn in H2.
        destruct l as [|m' l].
        * cbn in H2. rewrite zadd_length in H2. lia.
        * pose proof (zcoefs_length (m' :: l) (zadd_at (snd m) (fst m) zl) ltac:(discriminate)) as L.
          unfold zcoefs in L. cbn in L, H2. lia.
  Qed.

  Definition ireal (e : expr num) (z : Z) : Prop := exists d, e = EReal d /\ lit d z.
  Lemma mapM_isum n prefer pos zl coefs : List.Forall2 isum pos zl ->
    oks (mapM (fun c => m_value (simp n prefer c)) pos) coefs -> List.Forall2 ireal coefs zl.
  Proof.
    intros F. revert coefs. induction F as [|c z pos zl Hc F IH]; intros coefs H; cbn [mapM] in H; oinv; constructor.
    - destruct (isum_simp _ _ _ _ _ Hc Hr) as (d & -> & Hd). exists d. auto.
    - now apply IH.
  Qed.
  Lemma int_values_ireal coefs zl : List.Forall2 ireal coefs zl ->
    forall ints, oks (int_values coefs) ints -> ints = zl.
  Proof.
    induction 1 as [|c z coefs zl (d & -> & Hd) F IH]; intros ints H; cbn [int_values] in H; oinv; [reflexivity|].
    rewrite (ro_round _ _ RO d z Hd), (ro_same _ _ RO d z Hd) in H.
    destruct ((ll_min <=? z)%Z && (z <=? ll_max)%Z); oinv. f_equal. now apply IH.
  Qed.

  (** FindZeros on an integer polynomial is the search on its coefficients. *)
  Lemma find_zeros_ipoly n prefer x e l rs : ipolynomial lit x e l -> ok (magnitude l) -> oks (find_zeros (simp n prefer) e) rs ->
    let zl := zcoefs l [] in
    (degree l = 0%nat /\ rs = []) \/
    exists t res more, (2 <= length zl)%nat /\ oks (rational_roots (rev zl)) (t, res) /\
      oks (rest_roots (simp n prefer) (map (fun z => EReal (n_of_Z z)) (rev t))) more /\ rs = (res ++ more)%list.
  Proof.
    intros Hp Ho H zl. unfold find_zeros in H.
    pose proof (ipoly_terms _ _ _ Hp) as Ft. pose proof (ipoly_nonempty _ _ _ Hp) as Hl.
    change (match rcast pAdd e with Some (EBin _ a b) => flatten OAdd a b | _ => [e] end) with (terms_of e) in H.
    destruct (coefficients_ipoly x _ _ Ft "" [] [] (or_introl eq_refl) (List.Forall2_nil _) (or_introl eq_refl))
      as (name & pos & Hc & Fz & _ & Htop); [cbn [wt fold_right]; now rewrite Z.add_0_r|].
    rewrite Hc in H. apply (proj1 (oks_bind _ _ _)) in H. destruct H as (y & Hy & H).
    apply (proj1 (oks_ret _ _)) in Hy. subst y. apply (proj1 (oks_bind _ _ _)) in H. destruct H as (y0 & Hr0 & H).
    rewrite (top_sum_kept _ (Htop Hl)) in Hr0.
    pose proof (mapM_isum _ _ _ _ _ Fz Hr0) as Fr.
    assert (Len : length y0 = length zl) by exact (Forall2_length _ _ _ Fr).
    assert (Lz : length zl = S (degree l)) by (unfold zl; rewrite zcoefs_length by exact Hl; reflexivity).
    destruct (length y0 <=? 1)%nat eqn:E1.
    - oinv. left. apply Nat.leb_le in E1. split; [lia|reflexivity].
    - right. apply Nat.leb_gt in E1. oinv. pose proof (int_values_ireal _ _ Fr _ Hr) as ->.
      fold zl in H. rewrite <- Len, Nat.eqb_refl in H. oinv. destruct y as [t res]. oinv.
      exists t, res, y. split; [lia|]. auto.
  Qed.

  (* what is computed from the linear or quadratic rest is not a quotient of two literals *)
  Lemma rest_not_quotient n prefer t more r p q : oks (rest_roots (simp n prefer) (map (fun z => EReal (n_of_Z z)) t)) more ->
    In r more -> r <> EDiv (EReal p) (EReal q).
  Proof.
    intros H Hr. destruct t as [|a [|b [|c [|d t]]]]; cbn [map rest_roots] in H; oinv; try (now destruct Hr).
    - destruct Hr as [<-|[]]. apply literal_simp in Hr0; [|cbn; auto]. rewrite Hr0. discriminate.
    - destruct Hr as [<-|[<-|[]]]; discriminate.
  Qed.
  Lemma coefficient_le l k : Z.abs (coefficient l k) <= magnitude l.
  Proof.
    induction l as [|m l IH]; cbn [coefficient magnitude fold_right]; [lia|].
    fold (coefficient l k). fold (magnitude l). destruct (Nat.eqb (snd m) k); lia.
  Qed.

  Lemma find_zeros_quotients n prefer x e l rs : ipolynomial lit x e l -> ok (magnitude l) ->
    oks (find_zeros (simp n prefer) e) rs -> forall c d, In (EDiv (EReal c) (EReal d)) rs ->
    exists p q, lit c p /\ lit d q /\ q <> 0 /\ poly_value l (IZR p / IZR q) = 0%R.
  Proof.
    intros Hp Ho H c d Hr. pose proof (ipoly_nonempty _ _ _ Hp) as Hne.
    destruct (find_zeros_ipoly _ _ _ _ _ _ Hp Ho H) as [[_ ->]|(t & res & more & L & Hrr & Hm & ->)]; [destruct Hr|].
    destruct (rational_roots_spec (rev (zcoefs l [])) t res) as (I & _ & _); [now rewrite rev_length|exact Hrr|].
    apply in_app_or in Hr. destruct Hr as [Hr|Hr].
    - destruct (inv_res _ _ _ _ I _ Hr) as (p & q & Epq & Hq & Hz & Bp & Bq). injection Epq as -> ->.
      rewrite zcoefs_last in Bp. rewrite (zcoefs_hd _ Hne) in Bq.
      exists p, q. pose proof (coefficient_le l 0). pose proof (coefficient_le l (degree l)). pose proof (magnitude_nonneg l).
      split; [|split; [|split]].
      + apply (il_of_Z _ _ _ IL), (ok_le _ _ Ho). lia.
      + apply (il_of_Z _ _ _ IL), (ok_le _ _ Ho). unfold leading in Bq. lia.
      + exact Hq.
      + now rewrite <- zcoefs_pe.
    - destruct (rest_not_quotient _ _ _ _ _ _ _ Hm Hr eq_refl).
  Qed.
End Extract.

(** Exact arithmetic is an instance. *)
Lemma q_rounds : Rounds Q_ops q_int.
Proof.
  assert (T : forall c z, q_int c z -> Q2R c = IZR z).
  { intros c z H. rewrite <- Q2R_inject. now apply Qreals.Qeq_eqR. }
  constructor; intros c z H; apply T in H as K.
  - now apply (ex_round _ _ Q_exact).
  - apply (ex_eqb _ _ Q_exact). now rewrite (ex_of_Z _ _ Q_exact).
  - assert (E : n_leb n0 c = true <-> (0 <= z)).
    { rewrite (ex_leb _ _ Q_exact). unfold n0. rewrite (ex_of_Z _ _ Q_exact), K. split; [apply le_IZR|apply IZR_le]. }
    destruct (Z.leb_spec 0 z); [tauto|]. destruct (n_leb n0 c); [|reflexivity]. exfalso. destruct E. specialize (H1 eq_refl). lia.
Qed.

(** Doubles. *)
Lemma d_int_value s m e (H : SpecFloat.bounded 53 1024 m e = true) z : d_int (B754_finite s m e H) z ->
  IZR z = (IZR (cond_Zopp s (Zpos m)) * bpow radix2 e)%R.
Proof. intros [_ K]. rewrite <- K. cbn [B2R]. unfold F2R. cbn [Fnum Fexp]. reflexivity. Qed.
Lemma d_rounds pw lg pwx lgx : Rounds (double_ops pw lg pwx lgx) d_int.
Proof.
  assert (S : forall c z, d_int c z -> is_finite (d_of z 0) = true /\ B2R (d_of z 0) = IZR z).
  { intros c z [Fc Rc]. pose proof (binary_normalize_correct 53 1024 d_prec d_max mode_NE z 0 false) as K. cbv zeta in K.
    replace (F2R (Float radix2 z 0)) with (IZR z) in K by (unfold F2R; cbn [Fnum Fexp]; simpl; ring).
    rewrite round_generic in K; [|apply valid_rnd_round_mode|rewrite <- Rc; apply generic_format_B2R].
    rewrite Rlt_bool_true in K; [split; apply K|]. rewrite <- Rc. apply abs_B2R_lt_emax. }
  constructor; cbn [n_round n_eqb n_leb n_of_Z double_ops n0].
  - intros c z H. destruct c as [s| | |s m e B].
    + destruct H as [_ H]. cbn in H. f_equal. apply eq_IZR. exact H.
    + destruct H. discriminate.
    + destruct H. discriminate.
    + apply d_int_value in H. f_equal.
      assert (P : forall k, (0 <= k)%Z -> bpow radix2 k = IZR (2 ^ k)).
      { intros k Hk. now rewrite <- (IZR_Zpower radix2 k Hk). }
      destruct (Z.leb_spec 0 e) as [He|He].
      * rewrite P, <- mult_IZR in H by exact He. apply eq_IZR in H. rewrite H. destruct s; cbn [cond_Zopp]; ring.
      * assert (K : (z * 2 ^ (- e) = cond_Zopp s (Zpos m))%Z).
        { apply eq_IZR. rewrite mult_IZR, H, <- P, Rmult_assoc, <- bpow_plus by lia. rewrite Z.add_opp_diag_r. cbn [bpow]. ring. }
        assert (T : (0 < 2 ^ (- e))%Z) by (apply Z.pow_pos_nonneg; lia).
        assert (A : (Zpos m = cond_Zopp s z * 2 ^ (- e))%Z) by (destruct s; cbn [cond_Zopp] in *; lia).
        replace (2 * Zpos m + 2 ^ (- e))%Z with (cond_Zopp s z * (2 * 2 ^ (- e)) + 2 ^ (- e))%Z by lia.
        rewrite Z.div_add_l by lia. rewrite (Z.div_small (2 ^ (- e))) by lia. rewrite Z.add_0_r. destruct s; cbn [cond_Zopp]; lia.
  - intros c z H. destruct (S c z H) as [F R]. rewrite Beqb_correct by (try exact F; apply H). apply Req_bool_true. rewrite R. apply H.
  - intros c z [Fc Rc]. unfold n0. cbn [n_of_Z double_ops]. destruct (d_of_int 0 ltac:(unfold d_ok; lia)) as [F0 R0].
    rewrite Bleb_correct by assumption. rewrite R0, Rc. destruct (Z.leb_spec 0 z) as [L|L].
    + apply Rle_bool_true. now apply IZR_le.
    + apply Rle_bool_false. now apply IZR_lt.
Qed.

(** ** When the search does not run out of [long long] *)
(** [only W m]: [m] ends normally, or with signed overflow if [W] allows it. *)
Definition only (W : Prop) {A} (m : M A) : Prop := (exists a, snd m = Ok a) \/ (W /\ snd m = Undef IntOverflow).
Lemma only_ret W {A} (a : A) : only W (ret a).
Proof. left. now exists a. Qed.
Lemma only_bind W {A B} (m : M A) (k : A -> M B) : only W m -> (forall a, oks m a -> only W (k a)) -> only W (bind m k).
Proof.
  unfold only, oks. destruct m as [t o]. cbn [snd]. intros [[a ->]|[w ->]] H; [|now right].
  specialize (H a eq_refl). cbn [bind]. destruct (k a) as [t' o']. exact H.
Qed.
Lemma only_lit W {num} {N : NumOps num} n prefer (e : expr num) : literal e -> (height e <= n)%nat -> only W (m_value (simp n prefer e)).
Proof. intros L H. left. exists (EReal (fold_lit e)). apply (proj2 (oks_value _ _)). now apply literal_fold. Qed.
Lemma only_rest W {num} {N : NumOps num} n prefer zs : (6 <= n)%nat ->
  only W (rest_roots (simp n prefer) (map (fun z => EReal (n_of_Z z)) zs)).
Proof.
  intros Hn. destruct zs as [|a [|b [|c [|d zs]]]]; cbn [map rest_roots]; try apply only_ret.
  - apply only_bind; [apply only_lit; [cbn; auto|cbn; lia]|]. intros; apply only_ret.
  - apply only_bind; [apply only_lit; [cbn; auto|cbn; lia]|]. intros y _.
    apply only_bind; [apply only_lit; [cbn; auto 10|cbn; lia]|]. intros z _.
    apply only_bind; [apply only_lit; [cbn; auto|cbn; lia]|]. intros; apply only_ret.
Qed.

(** FindZeros gives an answer as soon as the search for rational roots does. *)
Lemma find_zeros_only W {num} {N : NumOps num} lit ok : IntLits N lit ok -> Rounds N lit ->
  forall x (e : expr num) l, ipolynomial lit x e l -> ok (magnitude l) ->
  (forall k, ll_min <= coefficient l k <= ll_max) ->
  exists k, forall n prefer, (k <= n)%nat ->
    (length (zcoefs l []) = 1%nat \/ only W (rational_roots (rev (zcoefs l [])) : M (list Z * list (expr num)))) ->
    only W (find_zeros (simp n prefer) e).
Proof.
  intros IL RO x e l Hp Ho Hr.
  pose proof (ipoly_terms lit _ _ _ Hp) as Ft. pose proof (ipoly_nonempty lit _ _ _ Hp) as Hne.
  destruct (coefficients_ipoly lit ok IL RO x _ _ Ft "" [] [] (or_introl eq_refl) (List.Forall2_nil _) (or_introl eq_refl))
    as (name & pos & Hc & Fz & _ & Htop); [cbn [wt fold_right]; now rewrite Z.add_0_r|].
  assert (B : exists k, List.Forall (fun c => (height c <= k)%nat) pos).
  { clear. induction pos as [|c pos [k IH]]; [exists 0%nat; constructor|]. exists (max k (height c)).
    constructor; [lia|]. eapply Forall_impl; [|exact IH]. cbn. intros; lia. }
  destruct B as [k B]. exists (max k 6). intros n prefer Hn Hs. unfold find_zeros.
  change (match rcast pAdd e with Some (EBin _ a b) => flatten OAdd a b | _ => [e] end) with (terms_of e).
  rewrite Hc. apply only_bind; [apply only_ret|]. intros y Hy. apply (proj1 (oks_ret _ _)) in Hy. subst y.
  rewrite (top_sum_kept _ (Htop Hne)). apply only_bind.
  { assert (B' : List.Forall (fun c => (height c <= n)%nat) pos) by (eapply Forall_impl; [|exact B]; cbn; intros; lia).
    clear - Fz B' IL. induction Fz as [|c z pos zl Hcz F IH]; cbn [mapM]; [apply only_ret|].
    inversion B' as [|? ? H1 H2]; subst. apply only_bind; [apply only_lit; [exact (isum_literal _ _ _ _ Hcz)|exact H1]|].
    intros y _. apply only_bind; [now apply IH|]. intros; apply only_ret. }
  intros coefs Hco. pose proof (mapM_isum lit ok IL _ _ _ _ _ Fz Hco) as Fr.
  destruct (length coefs <=? 1)%nat eqn:E1; [apply only_ret|]. apply Nat.leb_gt in E1.
  pose proof (Forall2_length _ _ _ Fr) as Len.
  apply only_bind.
  { assert (Z : List.Forall (fun z => ll_min <= z <= ll_max) (zcoefs l [])).
    { apply Forall_forall. intros z Hz. apply (In_nth _ _ 0%Z) in Hz.
      destruct Hz as (i & _ & <-). rewrite zcoefs_nth. cbn. destruct i; rewrite Z.add_0_r; apply Hr. }
    clear - Fr Z RO. induction Fr as [|c z coefs zl (d & -> & Hd) F IH]; cbn [int_values]; [apply only_ret|].
    inversion Z as [|? ? H1 H2]; subst. rewrite (ro_round _ _ RO d z Hd), (ro_same _ _ RO d z Hd).
    replace ((ll_min <=? z)%Z && (z <=? ll_max)%Z) with true
      by (symmetry; apply andb_true_iff; split; apply Z.leb_le; lia).
    apply only_bind; [now apply IH|]. intros; apply only_ret. }
  intros ints Hi. pose proof (int_values_ireal lit RO _ _ Fr _ Hi) as ->. rewrite <- Len, Nat.eqb_refl.
  apply only_bind; [destruct Hs as [Hs|Hs]; [lia|exact Hs]|].
  intros [t res] _. apply only_bind; [apply only_rest; lia|]. intros; apply only_ret.
Qed.

Lemma zcoefs_roomy l : l <> [] ->
  magnitude l * Z.of_nat (fact (S (degree l))) * Z.abs (coefficient l 0) ^ Z.of_nat (S (degree l)) <= 2 ^ 63 - 1 ->
  coefficient l 0 <> 0 -> roomy (Z.abs (last (rev (zcoefs l [])) 0)) (rev (zcoefs l [])).
Proof.
  intros Hne H H0. unfold roomy. rewrite zcoefs_last, rev_length, (zcoefs_length l [] Hne). cbn [length]. rewrite Nat.max_0_l.
  assert (W : weight (rev (zcoefs l [])) <= magnitude l).
  { rewrite <- (Z.add_0_r (magnitude l)). change 0 with (wt []). eapply Z.le_trans; [|apply zcoefs_wt].
    generalize (zcoefs l []). intros z. induction z as [|a z IH]; [cbn; lia|]. cbn [rev]. rewrite weight_app.
    cbn [wt fold_right]. fold (wt z). cbn [weight fold_right]. lia. }
  assert (F : forall n, fact_z n = Z.of_nat (fact n)).
  { induction n as [|n IH]; [reflexivity|]. cbn [fact_z]. rewrite IH, <- Nat2Z.inj_mul. reflexivity. }
  rewrite F. change ll_max with (2 ^ 63 - 1). eapply Z.le_trans; [|exact H].
  pose proof (pow_pos (Z.abs (coefficient l 0)) (S (degree l)) ltac:(lia)).
  apply Z.mul_le_mono_nonneg_r; [lia|]. apply Z.mul_le_mono_nonneg_r; lia.
Qed.
Lemma only_post W {A} (m : M A) Q : post m Q -> only W m.
Proof. intros (a & -> & _). left. now exists a. Qed.

(** ** C28: FindZeros reports only roots

    The polynomial may be written with any literals that are exact integers;
    [ok] bounds the sum of the magnitudes of the coefficients.  Of every
    reported quotient of two literals both literals are exact integers, and
    the exact quotient is a root.  Nothing is said of the results that are
    computed from the linear or quadratic rest: these are rounded. *)
Theorem c28_integers :
  forall (num : Type) (N : NumOps num) lit ok, IntLits N lit ok -> Rounds N lit ->
  forall n prefer (x : string) (e : expr num) l, ipolynomial lit x e l -> ok (magnitude l) ->
  forall rs, snd (find_zeros (simp n prefer) e) = Ok rs ->
  forall c d, In (EDiv (EReal c) (EReal d)) rs ->
  exists p q, lit c p /\ lit d q /\ q <> 0 /\ poly_value l (IZR p / IZR q) = 0%R.
Proof. intros. eapply find_zeros_quotients; eauto. Qed.
Print Assumptions c28_integers.

Theorem c28_doubles : forall pw lg pwx lgx, let N := double_ops pw lg pwx lgx in
  forall n prefer (x : string) (e : expr double) l, ipolynomial d_int x e l -> magnitude l <= 2 ^ 53 ->
  forall rs, snd (find_zeros (simp n prefer) e) = Ok rs ->
  forall c d, In (EDiv (EReal c) (EReal d)) rs ->
  is_finite c = true /\ is_finite d = true /\ B2R d <> 0%R /\ poly_value l (B2R c / B2R d) = 0%R.
Proof.
  intros pw lg pwx lgx N n prefer x e l He Hm rs H c d Hi.
  assert (Ho : d_ok (magnitude l)) by (unfold d_ok; pose proof (magnitude_nonneg l); lia).
  destruct (c28_integers double N d_int d_ok (double_ints pw lg pwx lgx) (d_rounds pw lg pwx lgx) n prefer x e l He Ho rs H c d Hi)
    as (p & q & [Fc Rc] & [Fd Rd] & Hq & Hz).
  rewrite Rc, Rd. repeat split; auto. now apply not_0_IZR.
Qed.
Print Assumptions c28_doubles.

(** 6 - 5*x + x^2 in doubles, with any pow and log2: 2/1 is reported (and 3). *)
Definition d_poly : expr double := EAdd (EAdd (dr 6) (EMul (dr (-5)) (EVar "x"))) (EExp (EVar "x") (dr 2)).
Definition d_poly_list : list (Z * nat) := [(6, 0%nat); (-5, 1%nat); (1, 2%nat)].
Lemma d_poly_spec : ipolynomial d_int "x" d_poly d_poly_list.
Proof.
  apply (ipo_add _ _ _ _ [(6, 0%nat); (-5, 1%nat)] [(1, 2%nat)]).
  - apply (ipo_add _ _ _ _ [(6, 0%nat)] [(-5, 1%nat)]).
    + apply ipo_mono, im_const. now apply d_lit.
    + apply ipo_mono, im_left; [now apply d_lit|constructor].
  - apply ipo_mono, im_power, ip_exp. now apply d_lit.
Qed.
(** ** C29: FindZeros reports every rational root, in machine numbers

    Missing, as before: numerators p with p^2 > a0 other than |a0|, likewise
    denominators; a0 = 0. *)
Theorem c29_integers_partial :
  forall (num : Type) (N : NumOps num) lit ok, IntLits N lit ok -> Rounds N lit ->
  forall n prefer (x : string) (e : expr num) l, ipolynomial lit x e l -> ok (magnitude l) ->
  leading l <> 0 -> coefficient l 0 <> 0 ->
  forall rs, snd (find_zeros (simp n prefer) e) = Ok rs ->
  forall p q, 0 < q -> Z.gcd p q = 1 ->
  (p * p <= coefficient l 0 \/ (Z.abs p = Z.abs (coefficient l 0) /\ Z.abs p <> 1)) ->
  (q * q <= leading l \/ (q = Z.abs (leading l) /\ q <> 1)) ->
  poly_value l (IZR p / IZR q) = 0%R ->
  exists c d a b, In (EDiv (EReal c) (EReal d)) rs /\ lit c a /\ lit d b /\ b <> 0 /\ (IZR a / IZR b = IZR p / IZR q)%R.
Proof.
  intros num N lit ok IL RO n prefer x e l Hp Ho Hl H0 rs H p q Hq Hg Dp Dq Hz.
  pose proof (ipoly_nonempty _ _ _ _ Hp) as Hne.
  assert (Rp : rel_prime p q) by now apply Zgcd_1_rel_prime.
  assert (Rp' : rel_prime (Z.abs p) q) by (apply Zgcd_1_rel_prime; now rewrite Z.gcd_abs_l).
  assert (Hzz : pe 0 (rev (zcoefs l [])) (IZR p / IZR q) = 0%R) by now rewrite zcoefs_pe.
  destruct (find_zeros_ipoly lit ok IL RO _ _ _ _ _ _ Hp Ho H) as [[Hd ->]|(t & res & more & L & Hrr & Hm & ->)].
  { exfalso. pose proof (zcoefs_length l [] Hne) as Lz. cbn [length] in Lz. rewrite Hd in Lz. cbn in Lz.
    pose proof (zcoefs_last l) as Kl.
    destruct (zcoefs l []) as [|z [|? ?]]; try discriminate Lz. cbn in Kl, Hzz. subst z. apply H0, eq_IZR. lra. }
  rewrite <- rev_length in L.
  destruct (rational_root p q _ Rp ltac:(lia) L Hzz) as [Dq' Dp']. rewrite (zcoefs_hd _ Hne) in Dq'. rewrite zcoefs_last in Dp'.
  destruct (rational_roots_spec _ t res L Hrr) as (I & _ & C). rewrite (zcoefs_hd _ Hne), zcoefs_last in C.
  assert (P0 : (0 < Z.abs p)%Z).
  { destruct (Z.eq_dec p 0) as [->|]; [|lia]. destruct Dp' as [k Hk]. lia. }
  assert (Sg : exists sg, (sg = -1 \/ sg = 1)%Z /\ p = (Z.abs p * sg)%Z).
  { destruct (Z.abs_spec p) as [[_ K]|[_ K]]; [exists 1%Z|exists (-1)%Z]; lia. }
  destruct Sg as (sg & Hsg & Hpe).
  destruct (C (Z.abs p) q sg P0 Hq Rp' Hsg) as (a & b & Hin & Hb & Hv & Ba & Bb).
  - destruct Dp as [Dp|[Dp1 Dp2]]; [left|right; lia]. split; [lia|]. split; [|now apply Z.divide_abs_l].
    rewrite <- Z.abs_mul, Z.abs_eq by apply Z.square_nonneg. exact Dp.
  - destruct Dq as [Dq|[Dq1 Dq2]]; [left|right; lia]. split; [lia|]. split; [exact Dq|exact Dq'].
  - now rewrite <- Hpe.
  - rewrite <- Hpe in Hv. exists (n_of_Z a), (n_of_Z b), a, b.
    pose proof (coefficient_le l 0). pose proof (coefficient_le l (degree l)). pose proof (magnitude_nonneg l). unfold leading in Bb.
    split; [apply in_or_app; now left|]. split; [apply (il_of_Z _ _ _ IL), (il_ok_le _ _ _ IL _ _ Ho); lia|].
    split; [apply (il_of_Z _ _ _ IL), (il_ok_le _ _ _ IL _ _ Ho); lia|]. split; [exact Hb|now rewrite Hv].
Qed.
Print Assumptions c29_integers_partial.

Theorem c29_doubles_partial : forall pw lg pwx lgx, let N := double_ops pw lg pwx lgx in
  forall n prefer (x : string) (e : expr double) l, ipolynomial d_int x e l -> magnitude l <= 2 ^ 53 ->
  leading l <> 0 -> coefficient l 0 <> 0 ->
  forall rs, snd (find_zeros (simp n prefer) e) = Ok rs ->
  forall p q, 0 < q -> Z.gcd p q = 1 ->
  (p * p <= coefficient l 0 \/ (Z.abs p = Z.abs (coefficient l 0) /\ Z.abs p <> 1)) ->
  (q * q <= leading l \/ (q = Z.abs (leading l) /\ q <> 1)) ->
  poly_value l (IZR p / IZR q) = 0%R ->
  exists c d, In (EDiv (EReal c) (EReal d)) rs /\ is_finite c = true /\ is_finite d = true /\ (B2R c / B2R d = IZR p / IZR q)%R.
Proof.
  intros pw lg pwx lgx N n prefer x e l He Hm Hl H0 rs H p q Hq Hg Dp Dq Hz.
  assert (Ho : d_ok (magnitude l)) by (unfold d_ok; pose proof (magnitude_nonneg l); lia).
  destruct (c29_integers_partial double N d_int d_ok (double_ints pw lg pwx lgx) (d_rounds pw lg pwx lgx) n prefer x e l He Ho Hl H0
    rs H p q Hq Hg Dp Dq Hz) as (c & d & a & b & Hi & [Fc Rc] & [Fd Rd] & Hb & Hv).
  exists c, d. rewrite Rc, Rd. auto.
Qed.
Print Assumptions c29_doubles_partial.
Example c29_doubles_case :
  coefficient d_poly_list 0 = 6 /\ leading d_poly_list = 1 /\ Z.gcd 2 1 = 1 /\ 2 * 2 <= coefficient d_poly_list 0 /\
  1 * 1 <= leading d_poly_list /\ poly_value d_poly_list (IZR 2 / IZR 1) = 0%R.
Proof. repeat split; try (cbn; lia); try reflexivity; try (vm_compute; discriminate). cbn. field. Qed.

(** ** C30: no undefined behaviour, in machine numbers

    Missing, as before: other expressions, and constant term 0.  Signed
    overflow during the search is left as the only other outcome. *)
Theorem c30_doubles_partial : forall pw lg pwx lgx, let N := double_ops pw lg pwx lgx in
  forall (x : string) (e : expr double) l, ipolynomial d_int x e l -> magnitude l <= 2 ^ 53 ->
  leading l <> 0 -> coefficient l 0 <> 0 ->
  exists k, forall (n : nat) (prefer : bool), (k <= n)%nat ->
    (exists rs, snd (find_zeros (simp n prefer) e) = Ok rs) \/
    snd (find_zeros (simp n prefer) e) = Undef IntOverflow.
Proof.
  intros pw lg pwx lgx N x e l He Hm Hl H0.
  assert (Ho : d_ok (magnitude l)) by (unfold d_ok; pose proof (magnitude_nonneg l); lia).
  pose proof (ipoly_nonempty _ _ _ _ He) as Hne.
  destruct (find_zeros_only True d_int d_ok (double_ints pw lg pwx lgx) (d_rounds pw lg pwx lgx) x e l He Ho) as [k Hk].
  { intros k. pose proof (coefficient_le l k). unfold ll_min, ll_max. lia. }
  exists k. intros n prefer Hn. destruct (Hk n prefer Hn) as [H|[_ H]]; [|now left|now right].
  destruct (Nat.eq_dec (length (zcoefs l [])) 1) as [E|E]; [now left|right].
  assert (S0 : safe (rational_roots (N := N) (rev (zcoefs l [])))).
  { apply safe_rational_roots; [|rewrite zcoefs_hd; assumption|rewrite zcoefs_last; assumption].
    rewrite rev_length. pose proof (zcoefs_length l [] Hne) as L. lia. }
  destruct S0 as [[a Ha]|Ha]; [left; exists a; exact (f_equal snd Ha)|right; split; [exact I|exact (f_equal snd Ha)]].
Qed.
Print Assumptions c30_doubles_partial.

(** Nor does the search overflow if M * (n+1)! * |a0|^(n+1) fits in 63 bits,
    where M is the sum of the magnitudes of the coefficients and n the degree.
    Then FindZeros gives an answer, in exact arithmetic as in doubles. *)
Theorem c30_answers_partial :
  forall (num : Type) (N : NumOps num) lit ok, IntLits N lit ok -> Rounds N lit ->
  forall (x : string) (e : expr num) l, ipolynomial lit x e l -> ok (magnitude l) ->
  leading l <> 0 -> coefficient l 0 <> 0 ->
  magnitude l * Z.of_nat (fact (S (degree l))) * Z.abs (coefficient l 0) ^ Z.of_nat (S (degree l)) <= 2 ^ 63 - 1 ->
  exists k, forall (n : nat) (prefer : bool), (k <= n)%nat -> exists rs, snd (find_zeros (simp n prefer) e) = Ok rs.
Proof.
  intros num N lit ok IL RO x e l He Ho Hl H0 Hb. pose proof (ipoly_nonempty _ _ _ _ He) as Hne.
  destruct (find_zeros_only False lit ok IL RO x e l He Ho) as [k Hk].
  { intros k. pose proof (coefficient_le l k). pose proof (magnitude_nonneg l).
    pose proof (pow_pos (Z.abs (coefficient l 0)) (S (degree l)) ltac:(lia)) as P.
    pose proof (lt_O_fact (S (degree l))) as F.
    assert (magnitude l <= magnitude l * Z.of_nat (fact (S (degree l)))) by nia.
    unfold ll_min, ll_max. nia. }
  exists k. intros n prefer Hn. destruct (Hk n prefer Hn) as [H|[[] _]]; [|exact H].
  destruct (Nat.eq_dec (length (zcoefs l [])) 1) as [E|E]; [now left|right].
  apply (only_post _ _ (fun _ => True)), rational_roots_post.
  - rewrite rev_length. pose proof (zcoefs_length l [] Hne) as L. lia.
  - now rewrite zcoefs_hd.
  - now rewrite zcoefs_last.
  - now apply zcoefs_roomy.
Qed.
Print Assumptions c30_answers_partial.

Theorem c30_answers_doubles_partial : forall pw lg pwx lgx, let N := double_ops pw lg pwx lgx in
  forall (x : string) (e : expr double) l, ipolynomial d_int x e l -> magnitude l <= 2 ^ 53 ->
  leading l <> 0 -> coefficient l 0 <> 0 ->
  magnitude l * Z.of_nat (fact (S (degree l))) * Z.abs (coefficient l 0) ^ Z.of_nat (S (degree l)) <= 2 ^ 63 - 1 ->
  exists k, forall (n : nat) (prefer : bool), (k <= n)%nat -> exists rs, snd (find_zeros (simp n prefer) e) = Ok rs.
Proof.
  intros pw lg pwx lgx N x e l He Hm.
  apply (c30_answers_partial double N d_int d_ok (double_ints pw lg pwx lgx) (d_rounds pw lg pwx lgx) x e l He).
  unfold d_ok. pose proof (magnitude_nonneg l). lia.
Qed.
Print Assumptions c30_answers_doubles_partial.
Example c30_doubles_case : ipolynomial d_int "x" d_poly d_poly_list /\ magnitude d_poly_list <= 2 ^ 53 /\
  leading d_poly_list <> 0 /\ coefficient d_poly_list 0 <> 0 /\
  magnitude d_poly_list * Z.of_nat (fact (S (degree d_poly_list))) * Z.abs (coefficient d_poly_list 0) ^ Z.of_nat (S (degree d_poly_list)) <= 2 ^ 63 - 1.
Proof. split; [exact d_poly_spec|]. repeat split; vm_compute; discriminate. Qed.

(** With C29 and C30: of 6 - 5*x + x^2 the root 2/1 is reported, whatever
    pow and log2 do.  This is also a case for C28. *)
Example c28_doubles_case : ipolynomial d_int "x" d_poly d_poly_list /\ magnitude d_poly_list <= 2 ^ 53 /\
  forall pw lg pwx lgx, exists n rs, snd (find_zeros (N := double_ops pw lg pwx lgx) (@simp _ (double_ops pw lg pwx lgx) n false) d_poly) = Ok rs /\
    exists c d, In (EDiv (EReal c) (EReal d)) rs /\ (B2R c / B2R d = 2)%R.
Proof.
  split; [exact d_poly_spec|]. split; [vm_compute; discriminate|]. intros pw lg pwx lgx.
  destruct c30_doubles_case as (_ & Hm & Hl & H0 & Hb).
  destruct (c30_answers_doubles_partial pw lg pwx lgx "x" d_poly d_poly_list d_poly_spec Hm Hl H0 Hb) as [k Hk].
  destruct (Hk k false (le_n k)) as [rs H]. exists k, rs. split; [exact H|].
  destruct c29_doubles_case as (_ & _ & Hg & Hp & Hq & Hz).
  destruct (c29_doubles_partial pw lg pwx lgx k false "x" d_poly d_poly_list d_poly_spec Hm Hl H0 rs H 2 1 ltac:(lia) Hg
    (or_introl Hp) (or_introl Hq) Hz) as (c & d & Hi & _ & _ & Hv).
  exists c, d. split; [exact Hi|]. rewrite Hv. field.
Qed.

(** ** C71: FindZeros has no answer for what is not a polynomial in one variable

    [summands e l]: the sum [e] has the summands [l], in that order.
    [multiple y k t]: [t] is a literal times or divided by y or y^k, or y^k
    itself. *)
Section NoAnswer.
  Context {num : Type} {N : NumOps num}.
  Inductive summands : expr num -> list (expr num) -> Prop :=
  | su_one e : (forall a b, e <> EAdd a b) -> summands e [e]
  | su_add a b l m : summands a l -> summands b m -> summands (EAdd a b) (l ++ m).

  Inductive multiple (y : string) : option num -> expr num -> Prop :=
  | mu_var : multiple y None (EVar y)
  | mu_pow k : multiple y (Some k) (EExp (EVar y) (EReal k))
  | mu_left c k t : multiple y k t -> (t = EVar y \/ exists j, t = EExp (EVar y) (EReal j)) -> multiple y k (EMul (EReal c) t)
  | mu_right c k t : multiple y k t -> (t = EVar y \/ exists j, t = EExp (EVar y) (EReal j)) -> multiple y k (EMul t (EReal c)).

  (** The number is not an integer, or not a number at all. *)
  Definition not_whole (k : num) : Prop :=
    (exists z, n_round k = Some z /\ n_eqb k (n_of_Z z) = false) \/ (n_round k = None /\ n_eqb k k = false).

  Lemma summands_flat e l : summands e l -> flat OAdd e = l.
  Proof.
    induction 1 as [e H|a b l m Ha IHa Hb IHb].
    - destruct e as [| | | | | | |o a b|]; try reflexivity. destruct o; try reflexivity. now destruct (H a b).
    - cbn [flat binop_eqb]. now rewrite IHa, IHb.
  Qed.
  Lemma summands_terms e l : summands e l -> terms_of e = l.
  Proof.
    intros H. pose proof (summands_flat _ _ H) as F. destruct H as [e H|a b l m Ha Hb]; [|exact F].
    unfold terms_of. destruct e as [| | | | | | |o a b|]; try reflexivity. destruct o; try reflexivity. now destruct (H a b).
  Qed.
  Lemma classify_multiple name y k t : multiple y k t ->
    exists c, classify name t = (c, y, match k with Some k => k | None => n1 end).
  Proof.
    destruct 1 as [|k|c k t H E|c k t H E]; [eexists; reflexivity..| |];
      (destruct E as [->|[j ->]]; inversion H; subst; eexists; reflexivity).
  Qed.

  Variables (lit : num -> Z -> Prop) (ok : Z -> Prop).
  Hypothesis IL : IntLits N lit ok.
  Hypothesis RO : Rounds N lit.

  Lemma coefficients_prefix x pre l : x <> "" -> List.Forall2 (imono_of lit x) pre l ->
    forall name pos, (name = "" \/ name = x) ->
    exists name' pos', (name' = "" \/ name' = x) /\
      ((name = x \/ exists u k, In u pre /\ multiple x k u) -> name' = x) /\
      forall post, coefficients (pre ++ post) name pos = coefficients post name' pos'.
  Proof.
    intros Hx0. induction 1 as [|e m pre l Hm F IH]; intros name pos Hn.
    - exists name, pos. split; [exact Hn|]. split; [|reflexivity]. intros [K|(u & k & [] & _)]. exact K.
    - cbn [app]. pose proof (classify_imono lit ok IL name x e m Hm) as (c & x' & k & Hcl & _ & Hk & Hx).
      assert (K3 : (if String.eqb name "" then x' else name) = x').
      { destruct (String.eqb name "") eqn:En; [reflexivity|]. apply String.eqb_neq in En.
        destruct Hn as [->| ->]; [congruence|]. destruct Hx; congruence. }
      destruct (IH x' (add_at (snd m) c pos)) as (name' & pos' & H1 & H2 & H3); [destruct Hx as [->| ->]; auto|].
      exists name', pos'. split; [exact H1|]. split.
      + intros [K|(u & j & [<-|Hi] & Hu)]; apply H2.
        * left. destruct Hx; congruence.
        * left. destruct (classify_multiple name _ _ _ Hu) as [c' E]. congruence.
        * right. eauto.
      + intros post. cbn [coefficients]. rewrite Hcl, K3.
        rewrite (ro_round _ _ RO k _ Hk), (ro_same _ _ RO k _ Hk), (ro_sign _ _ RO k _ Hk).
        replace (0 <=? Z.of_nat (snd m)) with true by (symmetry; apply Z.leb_le; lia).
        rewrite String.eqb_refl, Nat2Z.id. cbn [negb orb]. apply H3.
  Qed.
  Lemma find_zeros_none S x e pre t post l : x <> "" -> summands e (pre ++ t :: post) -> List.Forall2 (imono_of lit x) pre l ->
    (forall name pos, (name = "" \/ name = x) -> ((exists u k, In u pre /\ multiple x k u) -> name = x) ->
      coefficients (t :: post) name pos = ret None) ->
    snd (find_zeros S e) = Ok [].
  Proof.
    intros Hx Hs F H. destruct (coefficients_prefix x pre l Hx F "" [] (or_introl eq_refl)) as (name & pos & H1 & H2 & H3).
    unfold find_zeros.
    change (match rcast pAdd e with Some (EBin _ a b) => flatten OAdd a b | _ => [e] end) with (terms_of e).
    rewrite (summands_terms _ _ Hs), H3, H by auto. reflexivity.
  Qed.
End NoAnswer.

(** Two variables: after some monomials in x, one of which mentions x, comes a
    monomial in another variable. *)
Theorem c71_two_variables :
  forall (num : Type) (N : NumOps num) lit ok, IntLits N lit ok -> Rounds N lit ->
  forall n prefer (x y : string) (e : expr num) pre t post l,
  x <> "" -> y <> "" -> x <> y ->
  summands e (pre ++ t :: post) ->
  List.Forall2 (fun u m => imonomial lit x u (fst m) (snd m)) pre l ->
  (exists u k, In u pre /\ multiple x k u) ->
  (exists c n, multiple y c t /\ match c with Some c => lit c n | None => True end) ->
  snd (find_zeros (simp n prefer) e) = Ok [].
Proof.
  intros num N lit ok IL RO n prefer x y e pre t post l Hx Hy Hxy Hs F Hu (c & z & Ht & Hc).
  apply (find_zeros_none lit ok IL RO _ x e pre t post l Hx Hs F). intros name pos _ Hn. specialize (Hn Hu). subst name.
  cbn [coefficients]. destruct (classify_multiple x y c t Ht) as [c' ->].
  assert (E0 : String.eqb x "" = false) by now apply String.eqb_neq. rewrite E0. cbv iota.
  assert (E1 : String.eqb x y = false) by now apply String.eqb_neq. rewrite E1. cbn [negb].
  destruct (n_round _); [rewrite orb_true_r|rewrite andb_false_r]; reflexivity.
Qed.
Print Assumptions c71_two_variables.

(** An exponent that is not an integer, of any variable. *)
Theorem c71_fractional_exponent :
  forall (num : Type) (N : NumOps num) lit ok, IntLits N lit ok -> Rounds N lit ->
  forall n prefer (x y : string) (e : expr num) pre t post l k,
  x <> "" -> summands e (pre ++ t :: post) ->
  List.Forall2 (fun u m => imonomial lit x u (fst m) (snd m)) pre l ->
  multiple y (Some k) t -> not_whole k ->
  snd (find_zeros (simp n prefer) e) = Ok [].
Proof.
  intros num N lit ok IL RO n prefer x y e pre t post l k Hx Hs F Ht Hk.
  apply (find_zeros_none lit ok IL RO _ x e pre t post l Hx Hs F). intros name pos _ _.
  cbn [coefficients]. destruct (classify_multiple name y (Some k) t Ht) as [c' ->].
  destruct Hk as [(z & -> & ->)|(-> & ->)]; reflexivity.
Qed.
Print Assumptions c71_fractional_exponent.

(** In doubles: a finite exponent whose value is no integer, or NaN. *)
Lemma double_not_whole pw lg pwx lgx (k : double) :
  (is_finite k = true /\ (forall z, B2R k <> IZR z)) \/ is_nan k = true -> not_whole (N := double_ops pw lg pwx lgx) k.
Proof.
  intros [[Fk Hk]|Hk].
  - left. cbn [n_round n_eqb n_of_Z double_ops]. destruct k as [s| | |s m e B]; try discriminate Fk; [now destruct (Hk 0)|].
    eexists. split; [reflexivity|].
    assert (V : B2R (B754_finite s m e B) = (IZR (cond_Zopp s (Zpos m)) * bpow radix2 e)%R) by reflexivity.
    assert (He : e < 0).
    { destruct (Z.lt_ge_cases e 0) as [|He]; [assumption|]. exfalso. apply (Hk (cond_Zopp s (Zpos m) * 2 ^ e)).
      rewrite V, mult_IZR, <- (IZR_Zpower radix2 e He). reflexivity. }
    destruct (Z.leb_spec 0 e) as [|_]; [lia|].
    assert (Hm : Zpos m < 2 ^ 53).
    { pose proof B as B'. apply andb_prop in B'. destruct B' as [B' _].
      unfold SpecFloat.canonical_mantissa in B'. apply Zeq_bool_eq in B'.
      rewrite <- (Z.abs_eq (Zpos m)) by lia. apply (Digits.Zpower_gt_Zdigits radix2 53).
      rewrite Digits.Zpos_digits2_pos in B'. change (Zpower_nat 2 53) with (2 ^ 53).
      unfold SpecFloat.fexp, SpecFloat.emin in B'. lia. }
    assert (T : 2 <= 2 ^ (- e)) by (change 2 with (2 ^ 1) at 1; apply Z.pow_le_mono_r; lia).
    assert (Z0 : 0 <= (2 * Zpos m + 2 ^ (- e)) / (2 * 2 ^ (- e)) <= 2 ^ 53).
    { split; [apply Z.div_pos; lia|]. apply Z.div_le_upper_bound; nia. }
    set (z := cond_Zopp s ((2 * Zpos m + 2 ^ (- e)) / (2 * 2 ^ (- e)))).
    assert (Oz : d_ok z) by (unfold d_ok, z; destruct s; cbn [cond_Zopp]; lia).
    destruct (d_of_int z Oz) as [Fz Rz]. rewrite Beqb_correct by (auto; reflexivity). rewrite Rz. apply Req_bool_false. apply Hk.
  - right. destruct k; try discriminate Hk. now split.
Qed.
Theorem c71_doubles : forall pw lg pwx lgx, let N := double_ops pw lg pwx lgx in
  forall n prefer (x y : string) (e : expr double) pre t post l k,
  x <> "" -> summands e (pre ++ t :: post) ->
  List.Forall2 (fun u m => imonomial d_int x u (fst m) (snd m)) pre l ->
  multiple y (Some k) t ->
  (is_finite k = true /\ (forall z, B2R k <> IZR z)) \/ is_nan k = true ->
  snd (find_zeros (simp n prefer) e) = Ok [].
Proof.
  intros pw lg pwx lgx N n prefer x y e pre t post l k Hx Hs F Ht Hk.
  apply (c71_fractional_exponent double N d_int d_ok (double_ints pw lg pwx lgx) (d_rounds pw lg pwx lgx) n prefer x y e pre t post l k);
    auto. now apply double_not_whole.
Qed.
Print Assumptions c71_doubles.

(** 6 - 5*x + y^2, and 6 - 5*x + x^(1/2). *)
Example c71_case :
  let pre := [dr 6; EMul (dr (-5)) (EVar "x")] in
  let ypow : expr double := EExp (EVar "y") (dr 2) in
  let root : expr double := EExp (EVar "x") (EReal (d_of 1 (-1))) in
  summands (EAdd (EAdd (dr 6) (EMul (dr (-5)) (EVar "x"))) ypow) (pre ++ [ypow]) /\
  summands (EAdd (EAdd (dr 6) (EMul (dr (-5)) (EVar "x"))) root) (pre ++ [root]) /\
  List.Forall2 (fun u m => imonomial d_int "x" u (fst m) (snd m)) pre [(6, 0%nat); (-5, 1%nat)] /\
  (exists u k, In u pre /\ multiple "x" k u) /\ multiple "y" (Some (d_of 2 0)) ypow /\ multiple "x" (Some (d_of 1 (-1))) root /\
  is_finite (d_of 1 (-1)) = true /\ (forall z, B2R (d_of 1 (-1)) <> IZR z).
Proof.
  cbv zeta. split; [|split; [|split; [|split; [|split; [|split; [|split]]]]]].
  - apply (su_add _ _ [dr 6; EMul (dr (-5)) (EVar "x")] [_]); [apply (su_add _ _ [_] [_])|]; apply su_one; discriminate.
  - apply (su_add _ _ [dr 6; EMul (dr (-5)) (EVar "x")] [_]); [apply (su_add _ _ [_] [_])|]; apply su_one; discriminate.
  - constructor; [apply im_const; now apply d_lit|]. constructor; [|constructor]. apply im_left; [now apply d_lit|constructor].
  - exists (EMul (dr (-5)) (EVar "x")), None. split; [right; now left|]. apply mu_left; [constructor|now left].
  - constructor.
  - constructor.
  - vm_compute. reflexivity.
  - assert (V : B2R (d_of 1 (-1)) = (1 / 2)%R).
    { replace (d_of 1 (-1)) with (SF2B (prec := 53) (emax := 1024) (SpecFloat.S754_finite false (2 ^ 52) (-53)) eq_refl).
      - simpl. unfold F2R. cbn [Fnum Fexp]. change (IZR (Z.pos (2 ^ 52))) with (bpow radix2 52). rewrite <- bpow_plus. simpl. lra.
      - apply B2SF_inj. vm_compute. reflexivity. }
    intros z K. rewrite V in K. assert (K2 : IZR (2 * z) = IZR 1) by (rewrite mult_IZR; lra). apply eq_IZR in K2. lia.
Qed.
