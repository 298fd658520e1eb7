(** Properties C28-C31: FindZeros and its helpers. *)
From Coq Require Import String Bool Arith ZArith Znumtheory QArith Reals Lra Lia.
From Coquelicot Require Import Coquelicot.
From Coq Require Import List.
From Verif Require Import Base Num Expr Ghost Simplify Calculus FindZeros Spec QNum FuelProofs PropertiesSimplify ZerosProofs.
Import ListNotations.
Open Scope string_scope.
Open Scope R_scope.

(** ** Specification: integer polynomials a + b*x + c*x^2 + ... as expressions *)
Section Poly.
  Context {num : Type}.
  Variable toR : num -> R.

  (** [power x e n]: [e] is x or x^n. *)
  Inductive power (x : string) : expr num -> nat -> Prop :=
  | pw_var : power x (EVar x) 1
  | pw_exp k n : toR k = INR n -> power x (EExp (EVar x) (EReal k)) n.

  (** [monomial x e z n]: [e] is the monomial z * x^n. *)
  Inductive monomial (x : string) : expr num -> Z -> nat -> Prop :=
  | mo_const c z : toR c = IZR z -> monomial x (EReal c) z 0
  | mo_power e n : power x e n -> monomial x e 1 n
  | mo_left c z e n : toR c = IZR z -> power x e n -> monomial x (EMul (EReal c) e) z n
  | mo_right c z e n : toR c = IZR z -> power x e n -> monomial x (EMul e (EReal c)) z n.

  (** [polynomial x e l]: [e] is a sum of monomials in x, with coefficients
      and exponents [l]. *)
  Inductive polynomial (x : string) : expr num -> list (Z * nat) -> Prop :=
  | po_mono e z n : monomial x e z n -> polynomial x e [(z, n)]
  | po_add a b l m : polynomial x a l -> polynomial x b m -> polynomial x (EAdd a b) (l ++ m).
End Poly.

(** Value at [v], coefficient of x^k, degree. *)
Definition poly_value (l : list (Z * nat)) (v : R) : R :=
  fold_right (fun m acc => IZR (fst m) * v ^ snd m + acc) 0 l.
Definition coefficient (l : list (Z * nat)) (k : nat) : Z :=
  fold_right (fun m acc => (if Nat.eqb (snd m) k then fst m else 0) + acc)%Z 0%Z l.
Definition degree (l : list (Z * nat)) : nat := fold_right (fun m acc => max (snd m) acc) 0%nat l.
Definition leading (l : list (Z * nat)) : Z := coefficient l (degree l).

(** Arithmetic without rounding in which EPSILON is less than 1. *)
Definition exact_eps {num : Type} (N : NumOps num) (toR : num -> R) : Prop := Exact N toR /\ toR n_eps < 1.

(** ** From the expression to the list of coefficients *)

(* coefficients from the constant upwards *)
Definition up (l : list Z) (v : R) : R := fold_right (fun c acc => IZR c + v * acc) 0 l.
Lemma pe_rev l v : pe 0 (rev l) v = up l v.
Proof.
  unfold pe, up. rewrite <- fold_left_rev_right, rev_involutive. induction l as [|c l IH]; [reflexivity|].
  cbn [fold_right]. rewrite IH. ring.
Qed.

Fixpoint zadd_at (k : nat) (z : Z) (l : list Z) : list Z :=
  match k, l with
  | O, [] => [z]
  | O, x :: l => (z + x)%Z :: l
  | S k, [] => 0%Z :: zadd_at k z []
  | S k, x :: l => x :: zadd_at k z l
  end.
Lemma zadd_up k z : forall l v, up (zadd_at k z l) v = IZR z * v ^ k + up l v.
Proof.
  induction k as [|k IH]; intros [|x l] v; cbn [zadd_at].
  - cbn. ring.
  - cbn. rewrite plus_IZR. ring.
  - change (0 + v * up (zadd_at k z []) v = IZR z * v ^ S k + 0). rewrite IH. cbn. ring.
  - change (IZR x + v * up (zadd_at k z l) v = IZR z * v ^ S k + (IZR x + v * up l v)). rewrite IH. cbn. ring.
Qed.
Lemma zadd_nth k z : forall l j, nth j (zadd_at k z l) 0%Z = ((if Nat.eqb k j then z else 0) + nth j l 0)%Z.
Proof.
  induction k as [|k IH]; intros [|x l] [|j]; cbn; try lia.
  - now destruct j.
  - rewrite IH. now destruct j.
  - now rewrite IH.
Qed.
Lemma zadd_length k z : forall l, length (zadd_at k z l) = max (length l) (S k).
Proof. induction k as [|k IH]; intros [|x l]; cbn; try lia; rewrite IH; cbn; lia. Qed.

Definition zcoefs (l : list (Z * nat)) (acc : list Z) : list Z := fold_left (fun acc m => zadd_at (snd m) (fst m) acc) l acc.
Lemma zcoefs_up l : forall acc v, up (zcoefs l acc) v = poly_value l v + up acc v.
Proof.
  induction l as [|m l IH]; intros acc v; cbn [zcoefs fold_left]; [change (up acc v = 0 + up acc v); ring|].
  change (up (zcoefs l (zadd_at (snd m) (fst m) acc)) v = poly_value (m :: l) v + up acc v).
  rewrite IH, zadd_up. change (poly_value (m :: l) v) with (IZR (fst m) * v ^ snd m + poly_value l v). ring.
Qed.
Lemma zcoefs_nth l : forall acc k, nth k (zcoefs l acc) 0%Z = (coefficient l k + nth k acc 0)%Z.
Proof.
  induction l as [|m l IH]; intros acc k; cbn [zcoefs fold_left]; [reflexivity|].
  change (nth k (zcoefs l (zadd_at (snd m) (fst m) acc)) 0%Z = (coefficient (m :: l) k + nth k acc 0)%Z).
  rewrite IH, zadd_nth.
  change (coefficient (m :: l) k) with ((if Nat.eqb (snd m) k then fst m else 0) + coefficient l k)%Z. lia.
Qed.
Lemma zcoefs_length l : forall acc, l <> [] -> length (zcoefs l acc) = max (length acc) (S (degree l)).
Proof.
  induction l as [|m l IH]; intros acc Hl; [congruence|]. cbn [zcoefs fold_left].
  change (length (zcoefs l (zadd_at (snd m) (fst m) acc)) = max (length acc) (S (degree (m :: l)))).
  destruct l as [|m' l].
  - cbn [zcoefs fold_left]. rewrite zadd_length. cbn [degree fold_right]. lia.
  - rewrite IH, zadd_length by discriminate.
    change (degree (m :: m' :: l)) with (max (snd m) (degree (m' :: l))). lia.
Qed.

Lemma Forall2_length {A B} (P : A -> B -> Prop) l m : List.Forall2 P l m -> length l = length m.
Proof. induction 1; cbn; congruence. Qed.

Section Extract.
  Context {num : Type} {N : NumOps num}.
  Variable toR : num -> R.
  Hypothesis E : Exact N toR.
  Hypothesis Heps : toR n_eps < 1.

  (* sums and products of integer literals *)
  Inductive zlit : expr num -> Z -> Prop :=
  | zl_real c z : toR c = IZR z -> zlit (EReal c) z
  | zl_add a b y z : zlit a y -> zlit b z -> zlit (EAdd a b) (y + z)
  | zl_mul a b y z : zlit a y -> zlit b z -> zlit (EMul a b) (y * z).

  Lemma zlit_of_Z z : zlit (EReal (n_of_Z z)) z.
  Proof. constructor. apply (ex_of_Z _ _ E). Qed.
  Lemma zlit_literal e z : zlit e z -> literal e.
  Proof. induction 1; cbn; auto. Qed.
  Lemma zlit_fold e z : zlit e z -> toR (fold_lit e) = IZR z.
  Proof.
    induction 1 as [c z H|a b y z Ha IHa Hb IHb|a b y z Ha IHa Hb IHb]; cbn [fold_lit fold2].
    - exact H.
    - rewrite (ex_add _ _ E), IHa, IHb, plus_IZR. reflexivity.
    - destruct (tiny (fold_lit a)) eqn:T.
      + unfold tiny in T. apply (ex_leb _ _ E) in T. rewrite (ex_abs _ _ E), IHa in T.
        assert (y = 0%Z).
        { destruct (Z.eq_dec y 0); [assumption|]. exfalso. rewrite <- abs_IZR in T.
          assert (1 <= IZR (Z.abs y)) by (apply (IZR_le 1); lia). lra. }
        subst. apply (ex_of_Z _ _ E).
      + destruct (n_eqb (fold_lit a) n1) eqn:T1.
        * apply (ex_eqb _ _ E) in T1. unfold n1 in T1. rewrite (ex_of_Z _ _ E), IHa in T1. apply eq_IZR in T1.
          subst. rewrite IHb, Z.mul_1_l. reflexivity.
        * rewrite (ex_mul _ _ E), IHa, IHb, mult_IZR. reflexivity.
  Qed.

  Lemma literal_simp n prefer (e r : expr num) : literal e -> oks (simp n prefer e) r -> r = EReal (fold_lit e).
  Proof.
    intros L H. pose proof (simp_mono n (max n (height e)) prefer e ltac:(lia)) as K.
    assert (K' : simp (max n (height e)) prefer e = simp n prefer e).
    { unfold oks in H. unfold le in K. destruct (simp n prefer e) as [t o]. cbn in H. subst o.
      destruct K as [K|K]; [discriminate K|congruence]. }
    pose proof (literal_fold e L (max n (height e)) prefer ltac:(lia)) as F. rewrite K' in F.
    unfold oks in H. congruence.
  Qed.
  Lemma zlit_simp n prefer e z r : zlit e z -> oks (simp n prefer e) r ->
    exists d, r = EReal d /\ toR d = IZR z.
  Proof.
    intros Hz H. apply literal_simp in H; [|now apply (zlit_literal e z)].
    exists (fold_lit e). split; [exact H|now apply zlit_fold].
  Qed.

  (* the terms of the sum *)
  Definition terms_of (e : expr num) : list (expr num) :=
    match rcast pAdd e with
    | Some (EBin _ a b) => flatten OAdd a b
    | _ => [e]
    end.
  Definition mono_of (x : string) (e : expr num) (m : Z * nat) : Prop := monomial toR x e (fst m) (snd m).

  Lemma power_not_add x e n : power toR x e n -> forall a b, e <> EAdd a b.
  Proof. destruct 1; discriminate. Qed.
  Lemma mono_flat x e z n : monomial toR x e z n -> flat OAdd e = [e].
  Proof.
    destruct 1 as [| ? ? P | |]; try reflexivity. destruct P; reflexivity.
  Qed.
  Lemma poly_flat x e l : polynomial toR x e l -> List.Forall2 (mono_of x) (flat OAdd e) l.
  Proof.
    induction 1 as [e z n H|a b l m Ha IHa Hb IHb].
    - rewrite (mono_flat _ _ _ _ H). repeat constructor. exact H.
    - cbn [flat binop_eqb]. apply Forall2_app; assumption.
  Qed.
  Lemma poly_terms x e l : polynomial toR x e l -> List.Forall2 (mono_of x) (terms_of e) l.
  Proof.
    intros H. pose proof (poly_flat _ _ _ H) as F. destruct H as [e z n H|a b l m Ha Hb].
    - unfold terms_of. destruct H as [| ? ? P | |]; try exact F. destruct P; exact F.
    - exact F.
  Qed.
  Lemma poly_nonempty x e l : polynomial toR x e l -> l <> [].
  Proof. induction 1 as [|a b l m Ha IHa Hb IHb]; [discriminate|]. destruct l; [congruence|discriminate]. Qed.

  Lemma classify_mono name x e m : mono_of x e m ->
    exists c x' k, classify name e = (c, x', k) /\ zlit c (fst m) /\ toR k = INR (snd m) /\
      (x' = x \/ x' = name).
  Proof.
    unfold mono_of. destruct m as [z n]. cbn [fst snd]. intros H.
    assert (P1 : toR n1 = INR 1) by (unfold n1; rewrite (ex_of_Z _ _ E); reflexivity).
    assert (P0 : toR n0 = INR 0) by (unfold n0; rewrite (ex_of_Z _ _ E); reflexivity).
    destruct H as [c z Hc|e n P|c z e n Hc P|c z e n Hc P]; [|destruct P as [|k n Hk]..].
    - exists (EReal c), name, n0. repeat split; auto. now constructor.
    - exists (real 1), x, n1. repeat split; auto. apply zlit_of_Z.
    - exists (real 1), x, k. repeat split; auto. apply zlit_of_Z.
    - exists (EReal c), x, n1. repeat split; auto. now constructor.
    - exists (EReal c), x, k. repeat split; auto. now constructor.
    - exists (EReal c), x, n1. repeat split; auto. now constructor.
    - exists (EReal c), x, k. repeat split; auto. now constructor.
  Qed.

  Lemma add_at_zlit k c z : zlit c z -> forall pos zl, List.Forall2 zlit pos zl ->
    List.Forall2 zlit (add_at k c pos) (zadd_at k z zl).
  Proof.
    intros Hc. pose proof (zlit_of_Z 0) as H0.
    induction k as [|k IH]; intros pos zl [|p y pos' zl' Hp F]; cbn [add_at zadd_at].
    - constructor; [|constructor]. replace z with (z + 0)%Z by lia. now constructor.
    - constructor; [now constructor|exact F].
    - constructor; [exact H0|]. apply IH. constructor.
    - constructor; [exact Hp|]. now apply IH.
  Qed.
  Definition top_sum (pos : list (expr num)) : Prop := exists p a b, pos = (p ++ [EAdd a b])%list.
  Lemma add_at_top k c : forall pos, pos = [] \/ top_sum pos -> top_sum (add_at k c pos).
  Proof.
    induction k as [|k IH]; intros pos H; cbn [add_at].
    - destruct pos as [|x pos]; [exists [], c, (real 0); reflexivity|].
      destruct H as [H|([|y p] & a & b & H)]; [discriminate| |]; injection H as -> ->.
      + exists [], c, (EAdd a b). reflexivity.
      + exists (EAdd c y :: p), a, b. reflexivity.
    - destruct pos as [|x pos].
      + destruct (IH []) as (p & a & b & ->); [now left|]. exists (real 0 :: p), a, b. reflexivity.
      + assert (K : pos = [] \/ top_sum pos).
        { destruct H as [H|([|y p] & a & b & H)]; [discriminate| |]; injection H as -> ->;
            [now left|right; exists p, a, b; reflexivity]. }
        destruct (IH pos K) as (p & a & b & ->). exists (x :: p), a, b. reflexivity.
  Qed.

  Lemma coefficients_poly x terms l : List.Forall2 (mono_of x) terms l ->
    forall name pos zl, (name = "" \/ name = x) -> List.Forall2 zlit pos zl -> (pos = [] \/ top_sum pos) ->
    exists name' pos', coefficients terms name pos = ret (Some (name', pos')) /\
      List.Forall2 zlit pos' (zcoefs l zl) /\ (pos' = [] \/ top_sum pos') /\ (l <> [] -> top_sum pos').
  Proof.
    induction 1 as [|e m terms l Hm F IH]; intros name pos zl Hn Hp Ht; cbn [coefficients].
    - exists name, pos. repeat split; auto. congruence.
    - destruct (classify_mono name x e m Hm) as (c & x' & k & -> & Hc & Hk & Hx).
      rewrite INR_IZR_INZ in Hk. rewrite (ex_round _ _ E k _ Hk).
      assert (K1 : n_eqb k (n_of_Z (Z.of_nat (snd m))) = true).
      { apply (ex_eqb _ _ E). now rewrite (ex_of_Z _ _ E). }
      assert (K2 : n_leb n0 k = true).
      { apply (ex_leb _ _ E). unfold n0. rewrite (ex_of_Z _ _ E), Hk. apply IZR_le. lia. }
      assert (K3 : (if String.eqb name "" then x' else name) = x').
      { destruct (String.eqb name "") eqn:En; [reflexivity|]. apply String.eqb_neq in En.
        destruct Hn as [->| ->]; [congruence|]. destruct Hx; congruence. }
      rewrite K1, K2, K3, String.eqb_refl, Nat2Z.id. cbn [negb orb].
      destruct (IH x' (add_at (snd m) c pos) (zadd_at (snd m) (fst m) zl)) as (n' & p' & H1 & H2 & H3 & H4).
      + destruct Hx as [->| ->]; auto.
      + now apply add_at_zlit.
      + right. now apply add_at_top.
      + exists n', p'. repeat split; auto. intros _.
        destruct H3 as [->|H3]; [|exact H3]. exfalso.
        apply Forall2_length in H2. cbn in H2.
        destruct l as [|m' l].
        * cbn in H2. rewrite zadd_length in H2. lia.
        * change (zcoefs (m' :: l) (zadd_at (snd m) (fst m) zl)) with
            (zcoefs (m' :: l) (zadd_at (snd m) (fst m) zl)) in H2.
          pose proof (zcoefs_length (m' :: l) (zadd_at (snd m) (fst m) zl) ltac:(discriminate)) as L.
          unfold zcoefs in L. cbn in L, H2. lia.
  Qed.

  Lemma top_sum_kept pos : top_sum pos -> rev (drop_zeros_rev (rev pos)) = pos.
  Proof.
    intros (p & a & b & ->). rewrite rev_app_distr. cbn [rev app drop_zeros_rev].
    change (rev (EAdd a b :: rev p) = (p ++ [EAdd a b])%list). cbn [rev]. now rewrite rev_involutive.
  Qed.

  Definition zreal (e : expr num) (z : Z) : Prop := exists d, e = EReal d /\ toR d = IZR z.

  Lemma mapM_zlit n prefer pos zl coefs : List.Forall2 zlit pos zl ->
    oks (mapM (fun c => m_value (simp n prefer c)) pos) coefs -> List.Forall2 zreal coefs zl.
  Proof.
    intros F. revert coefs. induction F as [|c z pos zl Hc F IH]; intros coefs H; cbn [mapM] in H; oinv; constructor.
    - destruct (zlit_simp _ _ _ _ _ Hc Hr) as (d & -> & Hd). exists d. auto.
    - now apply IH.
  Qed.
  Lemma mapM_length {A B} (f : A -> M B) l : forall r, oks (mapM f l) r -> length r = length l.
  Proof. induction l as [|a l IH]; cbn [mapM]; intros r H; oinv; [reflexivity|]. cbn. f_equal. now apply IH. Qed.

  Lemma int_values_zreal coefs zl : List.Forall2 zreal coefs zl ->
    forall ints, oks (int_values coefs) ints -> ints = zl.
  Proof.
    induction 1 as [|c z coefs zl (d & -> & Hd) F IH]; intros ints H; cbn [int_values] in H; oinv; [reflexivity|].
    rewrite (ex_round _ _ E d z Hd) in H.
    assert (K1 : n_eqb d (n_of_Z z) = true) by (apply (ex_eqb _ _ E); now rewrite (ex_of_Z _ _ E)).
    rewrite K1 in H. destruct ((ll_min <=? z)%Z && (z <=? ll_max)%Z); oinv. f_equal. now apply IH.
  Qed.

  (** FindZeros on an integer polynomial is the search on its coefficients. *)
  Lemma find_zeros_poly n prefer x e l rs : polynomial toR x e l -> oks (find_zeros (simp n prefer) e) rs ->
    let zl := zcoefs l [] in
    (degree l = 0%nat /\ rs = []) \/
    exists t res more, (2 <= length zl)%nat /\ oks (rational_roots (rev zl)) (t, res) /\
      oks (rest_roots (simp n prefer) (map (fun z => EReal (n_of_Z z)) (rev t))) more /\ rs = (res ++ more)%list.
  Proof.
    intros Hp H zl. unfold find_zeros in H.
    pose proof (poly_terms _ _ _ Hp) as Ft. pose proof (poly_nonempty _ _ _ Hp) as Hl.
    change (match rcast pAdd e with Some (EBin _ a b) => flatten OAdd a b | _ => [e] end) with (terms_of e) in H.
    destruct (coefficients_poly x _ _ Ft "" [] [] (or_introl eq_refl) (List.Forall2_nil _) (or_introl eq_refl))
      as (name & pos & Hc & Fz & _ & Htop).
    rewrite Hc in H. apply (proj1 (oks_bind _ _ _)) in H. destruct H as (y & Hy & H).
    apply (proj1 (oks_ret _ _)) in Hy. subst y. apply (proj1 (oks_bind _ _ _)) in H. destruct H as (y0 & Hr0 & H).
    rewrite (top_sum_kept _ (Htop Hl)) in Hr0.
    pose proof (mapM_zlit _ _ _ _ _ Fz Hr0) as Fr.
    assert (Len : length y0 = length zl) by exact (Forall2_length _ _ _ Fr).
    assert (Lz : length zl = S (degree l)) by (unfold zl; rewrite zcoefs_length by exact Hl; reflexivity).
    destruct (length y0 <=? 1)%nat eqn:E1.
    - oinv. left. apply Nat.leb_le in E1. split; [lia|reflexivity].
    - right. apply Nat.leb_gt in E1. oinv. pose proof (int_values_zreal _ _ Fr _ Hr) as ->.
      fold zl in H. rewrite <- Len, Nat.eqb_refl in H. oinv. destruct y as [t res]. oinv.
      exists t, res, y. split; [lia|]. auto.
  Qed.

  (** ** Linear and quadratic rests *)
  Lemma rev_inj2 {A} (t : list A) a b : rev t = [a; b] -> t = [b; a].
  Proof. intros H. rewrite <- (rev_involutive t), H. reflexivity. Qed.
  Lemma rev_inj3 {A} (t : list A) a b c : rev t = [a; b; c] -> t = [c; b; a].
  Proof. intros H. rewrite <- (rev_involutive t), H. reflexivity. Qed.

  Lemma linear_value n prefer c0 c1 r : c1 <> 0%Z ->
    oks (simp n prefer (EDiv (EMul (real (-1)) (EReal (n_of_Z c0))) (EReal (n_of_Z c1)))) r ->
    exists d, r = EReal d /\ toR d = - IZR c0 / IZR c1.
  Proof.
    intros H1 H. apply literal_simp in H; [|cbn; auto]. eexists. split; [exact H|]. cbn [fold_lit].
    change (fold2 ODiv ?a ?b) with (n_div a b).
    pose proof (zlit_fold (EMul (real (-1)) (EReal (n_of_Z c0))) (-1 * c0)
                  (zl_mul _ _ _ _ (zlit_of_Z _) (zlit_of_Z _))) as F. 
    assert (IZR c1 <> 0) by now apply not_0_IZR.
    rewrite (ex_div _ _ E); rewrite (ex_of_Z _ _ E); [|assumption].
    unfold Rdiv. f_equal. transitivity (IZR (-1 * c0)); [exact F|]. rewrite mult_IZR. ring.
  Qed.

  Lemma half_value rho h : ev toR (EDiv (real 1) (real 2)) rho h -> h = RtoC (/ 2).
  Proof.
    cbn. intros (p & q & -> & -> & _ & ->). rewrite !(ex_of_Z _ _ E).
    unfold Cdiv. rewrite <- RtoC_inv by lra. rewrite <- RtoC_mult. f_equal. field.
  Qed.
  Lemma ev_half rho : ev toR (EDiv (real 1) (real 2)) rho (RtoC (/ 2)).
  Proof.
    cbn. exists (RtoC 1), (RtoC 2). rewrite !(ex_of_Z _ _ E). repeat split; auto.
    - intros K. apply RtoC_inj in K. lra.
    - unfold Cdiv. rewrite <- RtoC_inv by lra. rewrite <- RtoC_mult. f_equal. field.
  Qed.
  Lemma cpow_half d s : cpow (RtoC d) (RtoC (/ 2)) s -> exists y, s = RtoC y /\ y * y = d.
  Proof.
    intros H. inversion H as [n Hn Hv|Hn Hb Hv|n Hn Hb Hv|x r Hb Hx Hr Hv|r Hb Hr Hr' Hv]; clear H.
    - exfalso. apply RtoC_inj in Hn. rewrite S_INR in Hn. pose proof (pos_INR n). lra.
    - exfalso. apply RtoC_inj in Hn. lra.
    - exfalso. apply RtoC_inj in Hn. rewrite S_INR in Hn. pose proof (pos_INR n). lra.
    - apply RtoC_inj in Hb, Hr. subst. exists (Rpower x (/ 2)). split; [reflexivity|].
      rewrite <- Rpower_plus. replace (/ 2 + / 2) with 1 by field. now apply Rpower_1.
    - apply RtoC_inj in Hb. subst. exists 0. split; [reflexivity|ring].
  Qed.
  Lemma half_cpow y : 0 <= y -> cpow (RtoC (y * y)) (RtoC (/ 2)) (RtoC y).
  Proof.
    intros [Hy|<-].
    - assert (K : Rpower (y * y) (/ 2) = y).
      { rewrite <- (Rpower_1 y Hy) at 1 2. rewrite <- Rpower_plus, Rpower_mult.
        replace ((1 + 1) * / 2) with 1 by field. now apply Rpower_1. }
      pose proof (cpow_real (RtoC (y * y)) (RtoC (/ 2)) (y * y) (/ 2) eq_refl ltac:(nra) eq_refl) as H.
      rewrite K in H. exact H.
    - rewrite Rmult_0_l. apply (cpow_base0 _ _ (/ 2)); auto. lra.
  Qed.

  Definition quad (nb d ta : num) (o : binop) : expr num :=
    EDiv (EBin o (EReal nb) (EExp (EReal d) (EDiv (real 1) (real 2)))) (EReal ta).

  Lemma rest_shape n prefer t more a : fine a t -> a <> 0%Z ->
    oks (rest_roots (simp n prefer) (map (fun z => EReal (n_of_Z z)) (rev t))) more ->
    (exists c0 c1 d, t = [c1; c0] /\ more = [EReal d] /\ toR d = - IZR c0 / IZR c1) \/
    (exists c b nb d ta, t = [a; b; c] /\ more = [quad nb d ta OAdd; quad nb d ta OSub] /\
       toR nb = - IZR b /\ toR d = IZR b * IZR b - 4 * IZR a * IZR c /\ toR ta = 2 * IZR a) \/
    ((length t <> 2 /\ length t <> 3)%nat /\ more = []).
  Proof.
    intros (F1 & F2 & F3) Ha H. subst a. destruct (rev t) as [|c0 [|c1 [|c2 [|c3 r]]]] eqn:Et.
    - cbn in H. oinv. right. right. apply (f_equal (@length Z)) in Et. rewrite rev_length in Et. cbn in Et. lia || (split; [lia|reflexivity]).
    - cbn in H. oinv. right. right. apply (f_equal (@length Z)) in Et. rewrite rev_length in Et. cbn in Et. split; [lia|reflexivity].
    - cbn [map rest_roots] in H. oinv. apply rev_inj2 in Et. subst t. cbn [hd] in *.
      destruct (linear_value _ _ _ _ _ Ha Hr) as (d & -> & Hd). left. exists c0, c1, d. auto.
    - cbn [map rest_roots] in H. oinv. apply rev_inj3 in Et. subst t. cbn [hd] in *. right. left.
      apply (zlit_simp _ _ _ (-1 * c1)) in Hr; [|constructor; apply zlit_of_Z].
      apply (zlit_simp _ _ _ (c1 * c1 + -4 * (c2 * c0))) in Hr0; [|repeat constructor; apply (ex_of_Z _ _ E)].
      apply (zlit_simp _ _ _ (2 * c2)) in Hr1; [|constructor; apply zlit_of_Z].
      destruct Hr as (nb & -> & Hnb), Hr0 as (d & -> & Hd), Hr1 as (ta & -> & Hta).
      exists c0, c1, nb, d, ta. repeat split.
      + rewrite Hnb, mult_IZR. ring.
      + rewrite Hd, plus_IZR, !mult_IZR. ring.
      + rewrite Hta, mult_IZR. ring.
    - cbn in H. oinv. right. right. apply (f_equal (@length Z)) in Et. rewrite rev_length in Et. cbn in Et. split; [lia|reflexivity].
  Qed.

  Lemma ev_quad nb d ta o rho v : o = OAdd \/ o = OSub -> ev toR (quad nb d ta o) rho v ->
    exists y, y * y = toR d /\ toR ta <> 0 /\
      v = RtoC ((if binop_eqb o OAdd then toR nb + y else toR nb - y) / toR ta).
  Proof.
    intros Ho H. unfold quad in H. cbn [ev] in H. destruct H as (p & q & H1 & Hq & Hq0 & Hv).
    assert (K : exists y, y * y = toR d /\ p = RtoC (if binop_eqb o OAdd then toR nb + y else toR nb - y)).
    { destruct Ho as [->| ->]; destruct H1 as (p1 & p2 & -> & (b & h & -> & Hh & Hc) & ->);
        apply half_value in Hh; subst h; apply cpow_half in Hc; destruct Hc as (y & -> & Hy); exists y; (split; [exact Hy|]).
      - cbn [binop_eqb]. now rewrite RtoC_plus.
      - cbn [binop_eqb]. now rewrite RtoC_minus. }
    destruct K as (y & Hy & ->). exists y. split; [exact Hy|].
    assert (T : toR ta <> 0) by (intros K; apply Hq0; now rewrite Hq, K).
    split; [exact T|]. rewrite Hv, Hq. unfold Cdiv. rewrite <- RtoC_inv by exact T. now rewrite <- RtoC_mult.
  Qed.

  Lemma quad_ev nb d ta o rho y : o = OAdd \/ o = OSub -> 0 <= y -> toR d = y * y -> toR ta <> 0 ->
    ev toR (quad nb d ta o) rho (RtoC ((if binop_eqb o OAdd then toR nb + y else toR nb - y) / toR ta)).
  Proof.
    intros Ho Hy Hd Ht. unfold quad. cbn [ev].
    exists (RtoC (if binop_eqb o OAdd then toR nb + y else toR nb - y)), (RtoC (toR ta)).
    split; [|split; [reflexivity|split]].
    - assert (K : exists p q, p = RtoC (toR d) /\ ev toR (EDiv (real 1) (real 2)) rho q /\ cpow p q (RtoC y)).
      { exists (RtoC (toR d)), (RtoC (/ 2)). split; [reflexivity|]. split; [apply ev_half|]. rewrite Hd. now apply half_cpow. }
      destruct Ho as [->| ->]; exists (RtoC (toR nb)), (RtoC y); (split; [reflexivity|split; [exact K|]]); cbn [binop_eqb].
      + now rewrite RtoC_plus.
      + now rewrite RtoC_minus.
    - intros K. apply RtoC_inj in K. contradiction.
    - unfold Cdiv. rewrite <- RtoC_inv by exact Ht. now rewrite <- RtoC_mult.
  Qed.

  Lemma rest_sound n prefer t more a : fine a t -> a <> 0%Z ->
    oks (rest_roots (simp n prefer) (map (fun z => EReal (n_of_Z z)) (rev t))) more ->
    forall r, In r more -> forall rho v, ev toR r rho v -> exists s, v = RtoC s /\ pe 0 t s = 0.
  Proof.
    intros F Ha H r Hr rho v Hv. assert (Ar : IZR a <> 0) by now apply not_0_IZR.
    destruct (rest_shape _ _ _ _ _ F Ha H) as [(c0 & c1 & d & -> & -> & Hd)|[(c & b & nb & d & ta & -> & -> & Hnb & Hd & Hta)|[_ ->]]].
    - destruct Hr as [<-|[]]. cbn in Hv. exists (toR d). split; [exact Hv|].
      destruct F as (F1 & _). cbn in F1. subst c1. cbn. rewrite Hd. field. exact Ar.
    - assert (K : forall o, o = OAdd \/ o = OSub -> ev toR (quad nb d ta o) rho v ->
                  exists s, v = RtoC s /\ pe 0 [a; b; c] s = 0).
      { intros o Ho K. destruct (ev_quad _ _ _ _ _ _ Ho K) as (y & Hy & Ht & ->). eexists. split; [reflexivity|].
        rewrite Hd in Hy. cbn. rewrite Hta, Hnb.
        assert (Q : forall y, y * y = IZR b * IZR b - 4 * IZR a * IZR c ->
          (((0 * ((- IZR b + y) / (2 * IZR a)) + IZR a) * ((- IZR b + y) / (2 * IZR a)) + IZR b) * ((- IZR b + y) / (2 * IZR a)) + IZR c) = 0).
        { clear - Ar. intros y Hy.
          replace (((0 * ((- IZR b + y) / (2 * IZR a)) + IZR a) * ((- IZR b + y) / (2 * IZR a)) + IZR b) * ((- IZR b + y) / (2 * IZR a)) + IZR c)
            with ((y * y - (IZR b * IZR b - 4 * IZR a * IZR c)) / (4 * IZR a)) by (field; exact Ar).
          rewrite Hy. field. exact Ar. }
        destruct Ho as [->| ->]; cbn [binop_eqb].
        - now apply Q.
        - unfold Rminus. apply Q. rewrite <- Hy. ring. }
      destruct Hr as [<-|[<-|[]]]; [apply (K OAdd)|apply (K OSub)]; auto.
    - destruct Hr.
  Qed.

  Lemma rest_complete n prefer t more a : fine a t -> a <> 0%Z -> (length t <= 3)%nat ->
    oks (rest_roots (simp n prefer) (map (fun z => EReal (n_of_Z z)) (rev t))) more ->
    forall s, pe 0 t s = 0 -> exists r, In r more /\ forall rho, ev toR r rho (RtoC s).
  Proof.
    intros F Ha L H s Hs. assert (Ar : IZR a <> 0) by now apply not_0_IZR.
    destruct (rest_shape _ _ _ _ _ F Ha H) as [(c0 & c1 & d & -> & -> & Hd)|[(c & b & nb & d & ta & -> & -> & Hnb & Hd & Hta)|[[L2 L3] ->]]].
    - destruct F as (F1 & _). cbn in F1. subst c1. exists (EReal d). split; [now left|]. intros rho. cbn. f_equal.
      rewrite Hd. cbn in Hs. apply (Rmult_eq_reg_l (IZR a)); [|exact Ar].
      replace (IZR a * (- IZR c0 / IZR a)) with (- IZR c0) by (field; exact Ar). lra.
    - set (w := 2 * IZR a * s + IZR b).
      assert (Hw : w * w = IZR b * IZR b - 4 * IZR a * IZR c).
      { unfold w. cbn in Hs. replace ((2 * IZR a * s + IZR b) * (2 * IZR a * s + IZR b)) with
          (4 * IZR a * (((0 * s + IZR a) * s + IZR b) * s + IZR c) + (IZR b * IZR b - 4 * IZR a * IZR c)) by ring.
        rewrite Hs. ring. }
      assert (T : toR ta <> 0) by (rewrite Hta; intros K; apply Ar; lra).
      destruct (Rle_dec 0 w) as [Hp|Hp].
      + exists (quad nb d ta OAdd). split; [now left|]. intros rho.
        replace s with ((if binop_eqb OAdd OAdd then toR nb + w else toR nb - w) / toR ta).
        * apply quad_ev; auto. now rewrite Hd.
        * cbn [binop_eqb]. rewrite Hnb, Hta. unfold w. field. exact Ar.
      + exists (quad nb d ta OSub). split; [right; now left|]. intros rho.
        replace s with ((if binop_eqb OSub OAdd then toR nb + - w else toR nb - - w) / toR ta).
        * apply quad_ev; auto; [lra|]. rewrite Hd, <- Hw. ring.
        * cbn [binop_eqb]. rewrite Hnb, Hta. unfold w. field. exact Ar.
    - exfalso. destruct F as (F1 & F2 & F3). destruct t as [|z [|? ?]]; [congruence| |cbn in L, L2, L3; lia].
      cbn in F1, Hs. subst z. apply Ar. lra.
  Qed.

  (** ** The whole function *)
  Lemma zcoefs_hd l : l <> [] -> hd 0%Z (rev (zcoefs l [])) = leading l.
  Proof.
    intros Hl. unfold leading. pose proof (zcoefs_length l [] Hl) as L. cbn [length] in L. rewrite Nat.max_0_l in L.
    replace (coefficient l (degree l)) with (nth (degree l) (zcoefs l []) 0%Z)
      by (rewrite zcoefs_nth; destruct (degree l); cbn; lia).
    destruct (zcoefs l []) as [|z m] eqn:Ez using rev_ind; [discriminate L|].
    rewrite rev_app_distr. cbn. rewrite app_length in L. cbn in L.
    rewrite app_nth2 by lia. replace (degree l - length m)%nat with 0%nat by lia. reflexivity.
  Qed.
  Lemma zcoefs_last l : last (rev (zcoefs l [])) 0%Z = coefficient l 0.
  Proof.
    replace (coefficient l 0) with (nth 0 (zcoefs l []) 0%Z) by (rewrite zcoefs_nth; cbn; lia).
    destruct (zcoefs l []) as [|z m]; [reflexivity|]. cbn [rev nth]. apply last_last.
  Qed.
  Lemma zcoefs_pe l v : pe 0 (rev (zcoefs l [])) v = poly_value l v.
  Proof. rewrite pe_rev, zcoefs_up. cbn. ring. Qed.

  Lemma ev_divide p q rho v : q <> 0%Z -> ev toR (divide_real p q) rho v <-> v = RtoC (IZR p / IZR q).
  Proof.
    intros Hq. assert (IZR q <> 0) by now apply not_0_IZR. unfold divide_real. cbn. rewrite !(ex_of_Z _ _ E). split.
    - intros (a & b & -> & -> & _ & ->). unfold Cdiv. rewrite <- RtoC_inv by assumption. now rewrite <- RtoC_mult.
    - intros ->. exists (RtoC (IZR p)), (RtoC (IZR q)). repeat split; auto.
      + intros K. apply RtoC_inj in K. contradiction.
      + unfold Cdiv. rewrite <- RtoC_inv by assumption. now rewrite <- RtoC_mult.
  Qed.

  Lemma find_zeros_sound n prefer x e l rs : polynomial toR x e l -> leading l <> 0%Z ->
    oks (find_zeros (simp n prefer) e) rs -> forall r, In r rs -> forall rho v, ev toR r rho v ->
    exists s, v = RtoC s /\ poly_value l s = 0.
  Proof.
    intros Hp Hl H r Hr rho v Hv. pose proof (poly_nonempty _ _ _ Hp) as Hne.
    destruct (find_zeros_poly _ _ _ _ _ _ Hp H) as [[_ ->]|(t & res & more & L & Hrr & Hm & ->)]; [destruct Hr|].
    destruct (rational_roots_spec (rev (zcoefs l [])) t res) as (I & _ & _);
      [now rewrite rev_length|exact Hrr|]. rewrite (zcoefs_hd _ Hne) in I.
    apply in_app_or in Hr. destruct Hr as [Hr|Hr].
    - destruct (inv_res _ _ _ _ I r Hr) as (p & q & -> & Hq & Hz & _). apply (ev_divide _ _ _ _ Hq) in Hv.
      eexists. split; [exact Hv|]. now rewrite <- zcoefs_pe.
    - destruct (rest_sound _ _ _ _ _ (inv_fine _ _ _ _ I) Hl Hm r Hr rho v Hv) as (s & -> & Hs). exists s. split; [reflexivity|].
      destruct (inv_div _ _ _ _ I) as [G HG]. cbn [fst] in HG, Hs. rewrite <- zcoefs_pe, HG, Hs. ring.
  Qed.
End Extract.


(** ** C28: FindZeros reports only roots

    For every sum of monomials z*x^n with integer z and natural n, in any
    order and nesting, whose highest coefficient is not 0, every value of every
    result is a root.  (A result without a value is a quadratic formula with
    a negative discriminant.) *)
Definition C28_statement : Prop :=
  forall (num : Type) (N : NumOps num) (toR : num -> R), exact_eps N toR ->
  forall (n : nat) (prefer : bool) (x : string) (e : expr num) (l : list (Z * nat)),
  polynomial toR x e l -> leading l <> 0%Z ->
  forall rs, snd (find_zeros (simp n prefer) e) = Ok rs ->
  forall r, In r rs -> forall rho v, ev toR r rho v ->
  exists s, v = RtoC s /\ poly_value l s = 0.

Theorem c28_only_roots : C28_statement.
Proof. intros num N toR [E He] n prefer x e l Hp Hl rs H. exact (find_zeros_sound toR E He n prefer x e l rs Hp Hl H). Qed.
Print Assumptions c28_only_roots.

Lemma poly_value_app l m v : poly_value (l ++ m) v = poly_value l v + poly_value m v.
Proof.
  induction l as [|y l IH]; [change (poly_value m v = 0 + poly_value m v); ring|].
  change (IZR (fst y) * v ^ snd y + poly_value (l ++ m) v = IZR (fst y) * v ^ snd y + poly_value l v + poly_value m v).
  rewrite IH. ring.
Qed.

(** [poly_value] is the value of the expression: where x^0 is only written
    with x different from 0. *)
Theorem c28_poly_value :
  forall (num : Type) (N : NumOps num) (toR : num -> R), Exact N toR ->
  forall x (e : expr num) l, polynomial toR x e l ->
  forall rho, rho x <> 0 -> ev toR e rho (RtoC (poly_value l (rho x))).
Proof.
  intros num N toR E x e l H rho Hx.
  assert (Pw : forall e n, power toR x e n -> ev toR e rho (RtoC (rho x ^ n))).
  { destruct 1 as [|k n Hk].
    - cbn. f_equal. ring.
    - cbn. exists (RtoC (rho x)), (RtoC (toR k)). repeat split; auto.
      assert (P : forall m, cpow_nat (RtoC (rho x)) m = RtoC (rho x ^ m)).
      { induction m as [|m IH]; cbn; [reflexivity|]. now rewrite IH, RtoC_mult. }
      destruct n as [|n].
      + cbn. apply cpow_zero; [now rewrite Hk|]. intros K. apply RtoC_inj in K. contradiction.
      + rewrite <- P. apply cpow_pos. now rewrite Hk. }
  induction H as [e z n H|a b l m Ha IHa Hb IHb].
  - cbn [poly_value fold_right fst snd]. replace (IZR z * rho x ^ n + 0) with (IZR z * rho x ^ n) by ring.
    destruct H as [c z Hc|e n P|c z e n Hc P|c z e n Hc P].
    + cbn. rewrite Hc. f_equal. ring.
    + rewrite Rmult_1_l. now apply Pw.
    + cbn. exists (RtoC (toR c)), (RtoC (rho x ^ n)). repeat split; [now apply Pw|]. now rewrite Hc, <- RtoC_mult.
    + cbn. exists (RtoC (rho x ^ n)), (RtoC (toR c)). repeat split; [now apply Pw|].
      rewrite Hc, <- RtoC_mult. f_equal. ring.
  - cbn. exists (RtoC (poly_value l (rho x))), (RtoC (poly_value m (rho x))). repeat split; auto.
    now rewrite poly_value_app, RtoC_plus.
Qed.
Print Assumptions c28_poly_value.

Lemma Q_exact_eps : exact_eps Q_ops Q2R.
Proof. split; [exact Q_exact|]. unfold n_eps. cbn. unfold Q2R. cbn. lra. Qed.

(** 6 - 5*x + x^2: FindZeros reports 2/1 and 3. *)
Definition c28_poly : expr Q := EAdd (EAdd (qr 6) (EMul (qr (-5)) (qv "x"))) (EExp (qv "x") (qr 2)).
Example c28_case :
  exact_eps Q_ops Q2R /\
  polynomial Q2R "x" c28_poly [(6%Z, 0%nat); ((-5)%Z, 1%nat); (1%Z, 2%nat)] /\
  leading [(6%Z, 0%nat); ((-5)%Z, 1%nat); (1%Z, 2%nat)] = 1%Z /\
  snd (find_zeros (simp 10 false) c28_poly) = Ok [EDiv (qr 2) (qr 1); qr 3].
Proof.
  split; [exact Q_exact_eps|]. split; [|split; [reflexivity|vm_compute; reflexivity]].
  change [(6%Z, 0%nat); ((-5)%Z, 1%nat); (1%Z, 2%nat)] with (([(6%Z, 0%nat)] ++ [((-5)%Z, 1%nat)]) ++ [(1%Z, 2%nat)])%list.
  repeat constructor; unfold Q2R; cbn; field.
Qed.

(** The highest coefficient must not be 0: for 0*x - 1 the result is the
    literal 1/0, which is infinity with doubles (and 0 with these rationals). *)
Theorem c28_zero_leading :
  snd (find_zeros (simp 10 false) (EAdd (EMul (qr 0) (qv "x")) (qr (-1)))) = Ok [EReal (1 / 0)%Q].
Proof. vm_compute. reflexivity. Qed.
Print Assumptions c28_zero_leading.

(** ** C29: FindZeros reports every rational root *)
Definition reports {num : Type} (toR : num -> R) (rs : list (expr num)) (s : R) : Prop :=
  exists r, In r rs /\ forall rho, ev toR r rho (RtoC s).

Definition C29_statement : Prop :=
  forall (num : Type) (N : NumOps num) (toR : num -> R), exact_eps N toR ->
  forall (n : nat) (prefer : bool) (x : string) (e : expr num) (l : list (Z * nat)),
  polynomial toR x e l -> leading l <> 0%Z ->
  forall rs, snd (find_zeros (simp n prefer) e) = Ok rs ->
  forall p q, q <> 0%Z -> poly_value l (IZR p / IZR q) = 0 -> reports toR rs (IZR p / IZR q).

(** x^3 - 1 has the root 1, but no root is reported: getAllFactors(-1) is empty. *)
Theorem c29_refuted : ~ C29_statement.
Proof.
  intros H.
  assert (R : snd (find_zeros (simp 10 false) (EAdd (EExp (qv "x") (qr 3)) (qr (-1)))) = Ok []) by (vm_compute; reflexivity).
  assert (P : polynomial Q2R "x" (EAdd (EExp (qv "x") (qr 3)) (qr (-1))) ([(1%Z, 3%nat)] ++ [((-1)%Z, 0%nat)])).
  { repeat constructor; unfold Q2R; cbn; field. }
  destruct (H Q Q_ops Q2R Q_exact_eps 10%nat false "x" _ _ P ltac:(cbn; lia) _ R 1%Z 1%Z ltac:(lia)) as (r & Hr & _).
  - cbn. field.
  - destruct Hr.
Qed.
Print Assumptions c29_refuted.

(** x^3 + 3x^2 + 2x + 6 = (x + 3)(x^2 + 2): the divisor 3 of 6 is not tried. *)
Theorem c29_missed_divisor :
  snd (find_zeros (simp 12 false)
    (EAdd (EAdd (qr 6) (EMul (qr 2) (qv "x"))) (EAdd (EMul (qr 3) (EExp (qv "x") (qr 2))) (EExp (qv "x") (qr 3))))) = Ok []
  /\ poly_value [(6%Z, 0%nat); (2%Z, 1%nat); (3%Z, 2%nat); (1%Z, 3%nat)] (-3) = 0.
Proof. split; [vm_compute; reflexivity|cbn; ring]. Qed.
Print Assumptions c29_missed_divisor.

Lemma hom_last p q l c : forall A s,
  (hom p q A s (l ++ [c]) = hom p q A s l * p + c * s * q ^ Z.of_nat (S (length l)))%Z.
Proof.
  induction l as [|d l IH]; intros A s.
  - cbn [app hom length]. change (Z.of_nat 1) with 1%Z. rewrite Z.pow_1_r. ring.
  - cbn [app hom]. rewrite IH. cbn [length]. rewrite (Nat2Z.inj_succ (S _)), Z.pow_succ_r by lia. ring.
Qed.

(** The rational root theorem. *)
Lemma rational_root p q l : rel_prime p q -> (q <> 0)%Z -> (2 <= length l)%nat -> pe 0 l (IZR p / IZR q) = 0 ->
  (q | hd 0 l)%Z /\ (p | last l 0)%Z.
Proof.
  intros Hp Hq L Hz. split.
  - destruct l as [|a [|b l]]; cbn in L; try lia. cbn [hd].
    apply (horner_divides p q b l a Hp Hq). cbn [pe fold_left] in *. replace (0 * (IZR p / IZR q) + IZR a) with (IZR a) in Hz by ring. exact Hz.
  - destruct l as [|a l] using rev_ind; [cbn in L; lia|]. clear IHl. rewrite last_last.
    pose proof (hom_pe p q (l ++ [a]) Hq 0 1 ltac:(lia)) as K.
    replace (0 / 1) with 0 in K by field. rewrite Hz, Rmult_0_r in K. apply eq_IZR in K.
    rewrite hom_last in K. apply (Gauss p (q ^ Z.of_nat (S (length l))) a).
    + exists (- hom p q 0 1 l)%Z. rewrite Z.mul_1_r in K. lia.
    + apply rel_prime_sym, rel_prime_pow; [now apply rel_prime_sym|lia].
Qed.

(** Missing: numerators p with p^2 > a0 (in particular all with a0 < 0) other
    than |a0|, and likewise denominators; a0 = 0. *)
Theorem c29_rational_roots_partial :
  forall (num : Type) (N : NumOps num) (toR : num -> R), exact_eps N toR ->
  forall (n : nat) (prefer : bool) (x : string) (e : expr num) (l : list (Z * nat)),
  polynomial toR x e l -> leading l <> 0%Z -> coefficient l 0 <> 0%Z ->
  forall rs, snd (find_zeros (simp n prefer) e) = Ok rs ->
  forall p q, (0 < q)%Z -> Z.gcd p q = 1%Z ->
  (p * p <= coefficient l 0 \/ (Z.abs p = Z.abs (coefficient l 0) /\ Z.abs p <> 1))%Z ->
  (q * q <= leading l \/ (q = Z.abs (leading l) /\ q <> 1))%Z ->
  poly_value l (IZR p / IZR q) = 0 -> reports toR rs (IZR p / IZR q).
Proof.
  intros num N toR [E He] n prefer x e l Hp Hl H0 rs H p q Hq Hg Dp Dq Hz.
  pose proof (poly_nonempty _ _ _ _ Hp) as Hne.
  assert (Rp : rel_prime p q) by now apply Zgcd_1_rel_prime.
  assert (Rp' : rel_prime (Z.abs p) q) by (apply Zgcd_1_rel_prime; now rewrite Z.gcd_abs_l).
  assert (Hzz : pe 0 (rev (zcoefs l [])) (IZR p / IZR q) = 0) by now rewrite zcoefs_pe.
  destruct (find_zeros_poly toR E He _ _ _ _ _ _ Hp H) as [[Hd ->]|(t & res & more & L & Hrr & Hm & ->)].
  { exfalso. pose proof (zcoefs_length l [] Hne) as Lz. cbn [length] in Lz. rewrite Hd in Lz. cbn in Lz.
    pose proof (zcoefs_last l) as Kl.
    destruct (zcoefs l []) as [|z [|? ?]]; try discriminate Lz. cbn in Kl, Hzz. subst z. apply H0, eq_IZR. lra. }
  rewrite <- rev_length in L.
  destruct (rational_root p q _ Rp ltac:(lia) L Hzz) as [Dq' Dp']. rewrite (zcoefs_hd _ Hne) in Dq'. rewrite zcoefs_last in Dp'.
  destruct (rational_roots_spec _ t res L Hrr) as (I & _ & C). rewrite (zcoefs_hd _ Hne), zcoefs_last in C.
  assert (P0 : (0 < Z.abs p)%Z).
  { destruct (Z.eq_dec p 0) as [->|]; [|lia]. destruct Dp' as [k Hk]. lia. }
  assert (Sg : exists sg, (sg = -1 \/ sg = 1)%Z /\ p = (Z.abs p * sg)%Z).
  { destruct (Z.abs_spec p) as [[_ K]|[_ K]]; [exists 1%Z|exists (-1)%Z]; lia. }
  destruct Sg as (sg & Hsg & Hpe).
  destruct (C (Z.abs p) q sg P0 Hq Rp' Hsg) as (a & b & Hin & Hb & Hv & _).
  - destruct Dp as [Dp|[Dp1 Dp2]]; [left|right; lia]. split; [lia|]. split; [|now apply Z.divide_abs_l].
    rewrite <- Z.abs_mul, Z.abs_eq by apply Z.square_nonneg. exact Dp.
  - destruct Dq as [Dq|[Dq1 Dq2]]; [left|right; lia]. split; [lia|]. split; [exact Dq|exact Dq'].
  - now rewrite <- Hpe.
  - rewrite <- Hpe in Hv. exists (divide_real a b). split; [apply in_or_app; now left|]. intros rho.
    apply (ev_divide toR E); [exact Hb|now rewrite Hv].
Qed.
Print Assumptions c29_rational_roots_partial.

Example c29_case :
  let l := [(6%Z, 0%nat); ((-5)%Z, 1%nat); (1%Z, 2%nat)] in
  coefficient l 0 = 6%Z /\ (2 * 2 <= coefficient l 0)%Z /\ (1 * 1 <= leading l)%Z /\ poly_value l (IZR 2 / IZR 1) = 0.
Proof. repeat split; try (cbn; lia). cbn. field. Qed.

(** Linear and quadratic polynomials with a constant term: every real root is reported. *)
Theorem c29_low_degree :
  forall (num : Type) (N : NumOps num) (toR : num -> R), exact_eps N toR ->
  forall (n : nat) (prefer : bool) (x : string) (e : expr num) (l : list (Z * nat)),
  polynomial toR x e l -> leading l <> 0%Z -> coefficient l 0 <> 0%Z ->
  (degree l <= 2)%nat ->
  forall rs, snd (find_zeros (simp n prefer) e) = Ok rs ->
  forall s, poly_value l s = 0 -> reports toR rs s.
Proof.
  intros num N toR [E He] n prefer x e l Hp Hl H0 Hdeg rs H s Hs.
  pose proof (poly_nonempty _ _ _ _ Hp) as Hne.
  pose proof (zcoefs_length l [] Hne) as Lz. cbn [length] in Lz. rewrite Nat.max_0_l in Lz.
  rewrite <- zcoefs_pe in Hs.
  destruct (find_zeros_poly toR E He _ _ _ _ _ _ Hp H) as [[Hd ->]|(t & res & more & L & Hrr & Hm & ->)].
  { exfalso. rewrite Hd in Lz. pose proof (zcoefs_last l) as Kl.
    destruct (zcoefs l []) as [|z [|? ?]]; try discriminate Lz. cbn in Kl, Hs. subst z. apply H0, eq_IZR. lra. }
  rewrite <- rev_length in L, Lz.
  destruct (rational_roots_spec _ t res L Hrr) as (I & Lt & _). rewrite (zcoefs_hd _ Hne) in I.
  assert (S0 : s <> 0).
  { intros ->. apply H0. rewrite <- zcoefs_last. apply eq_IZR. rewrite <- Hs.
    destruct (rev (zcoefs l [])) as [|a m] using rev_ind; [cbn in L; lia|]. rewrite last_last, pe_app. cbn. ring. }
  destruct (inv_all _ _ _ _ I s Hs S0) as [K|(p & q & Hin & Hq & -> & _)].
  - destruct (rest_complete toR E He _ _ _ _ _ (inv_fine _ _ _ _ I) Hl ltac:(cbn [fst]; lia) Hm s K) as (r & Hr & Hv).
    exists r. split; [apply in_or_app; now right|exact Hv].
  - exists (divide_real p q). split; [apply in_or_app; now left|]. intros rho. now apply (ev_divide toR E).
Qed.
Print Assumptions c29_low_degree.

(** -1 + x + x^2 has irrational roots, reported as the quadratic formula. *)
Example c29_low_degree_case :
  polynomial Q2R "x" (EAdd (EAdd (qr (-1)) (qv "x")) (EExp (qv "x") (qr 2))) (([((-1)%Z, 0%nat)] ++ [(1%Z, 1%nat)]) ++ [(1%Z, 2%nat)]) /\
  exists rs, snd (find_zeros (simp 10 false) (EAdd (EAdd (qr (-1)) (qv "x")) (EExp (qv "x") (qr 2)))) = Ok rs /\ length rs = 2%nat.
Proof.
  split; [repeat constructor; unfold Q2R; cbn; field|]. eexists. split; [vm_compute; reflexivity|reflexivity].
Qed.

(** ** C30: FindZeros is free of undefined behaviour *)
Definition C30_statement : Prop :=
  forall (num : Type) (N : NumOps num) (e : expr num) (n : nat) (prefer : bool) (u : ub),
  In u [DivByZero; BadIndex; EmptyAccess] -> snd (find_zeros (simp n prefer) e) <> Undef u.

(** x^2 + x: gcf is called with the factor 0 of the constant term. *)
Theorem c30_zero_constant :
  snd (find_zeros (simp 10 false) (EAdd (EExp (qv "x") (qr 2)) (qv "x"))) = Undef DivByZero.
Proof. vm_compute. reflexivity. Qed.
Print Assumptions c30_zero_constant.

(** c/x, c/x^k, x^-k and c * x^-k: negCoefficents is indexed with the
    negative exponent. *)
Theorem c30_negative_exponent :
  forall (num : Type) (N : NumOps num) (toR : num -> R), Exact N toR ->
  forall n prefer (x : string) (c k m : num) p, toR k = IZR (Zpos p) -> toR m = IZR (Zneg p) ->
  forall e : expr num,
  In e [EDiv (EReal c) (EVar x); EDiv (EReal c) (EExp (EVar x) (EReal k));
        EExp (EVar x) (EReal m); EMul (EReal c) (EExp (EVar x) (EReal m))] ->
  snd (find_zeros (simp n prefer) e) = Undef BadIndex.
Proof.
  intros num N toR E n prefer x c k m p Hk Hm e He.
  assert (K : forall y q, toR y = IZR (Zneg q) ->
    n_round y = Some (Zneg q) /\ n_eqb y (n_of_Z (Zneg q)) = true /\ n_leb n0 y = false).
  { intros y q Hy. split; [now apply (ex_round _ _ E)|]. split.
    - apply (ex_eqb _ _ E). now rewrite (ex_of_Z _ _ E).
    - destruct (n_leb n0 y) eqn:L; [|reflexivity]. apply (ex_leb _ _ E) in L. unfold n0 in L.
      rewrite (ex_of_Z _ _ E), Hy in L. apply le_IZR in L. lia. }
  assert (C : forall t y q, toR y = IZR (Zneg q) -> (exists d, classify "" t = (d, x, y)) ->
    snd (coefficients [t] "" []) = Undef BadIndex).
  { intros t y q Hy [d Hd]. destruct (K y q Hy) as (K1 & K2 & K3). cbn [coefficients]. rewrite Hd, K1, K2, K3.
    cbn [negb orb]. replace (if String.eqb "" "" then x else "") with x by reflexivity. now rewrite String.eqb_refl. }
  assert (F : forall t, rcast pAdd t = None -> snd (coefficients [t] "" []) = Undef BadIndex ->
    snd (find_zeros (simp n prefer) t) = Undef BadIndex).
  { intros t Ht Hc. unfold find_zeros. rewrite Ht. destruct (coefficients [t] "" []) as [tr o]. cbn [snd] in Hc. now subst o. }
  destruct He as [<-|[<-|[<-|[<-|[]]]]]; apply F; try reflexivity.
  - apply (C _ nm1 1%positive); [apply (ex_of_Z _ _ E)|]. eexists. reflexivity.
  - apply (C _ (n_opp k) p); [rewrite (ex_opp _ _ E), Hk, <- opp_IZR; reflexivity|]. eexists. reflexivity.
  - apply (C _ m p); [exact Hm|]. eexists. reflexivity.
  - apply (C _ m p); [exact Hm|]. eexists. reflexivity.
Qed.
Print Assumptions c30_negative_exponent.
Example c30_negative_exponent_case : Q2R 2 = IZR 2 /\ Q2R (-2) = IZR (-2).
Proof. split; [change 2%Q with (inject_Z 2)|change (-2)%Q with (inject_Z (-2))]; apply Q2R_inject. Qed.

Theorem c30_refuted : ~ C30_statement.
Proof.
  intros H. apply (H Q Q_ops (EAdd (EExp (qv "x") (qr 2)) (qv "x")) 10%nat false DivByZero); [now left|].
  exact c30_zero_constant.
Qed.
Print Assumptions c30_refuted.

Section Safe.
  Context {num : Type} {N : NumOps num}.
  Variable toR : num -> R.
  Hypothesis E : Exact N toR.
  Hypothesis Heps : toR n_eps < 1.

  Definition osafe {A} (m : M A) : Prop := (exists a, snd m = Ok a) \/ snd m = Undef IntOverflow.
  Lemma osafe_ret {A} (a : A) : osafe (ret a).
  Proof. left. now exists a. Qed.
  Lemma osafe_bind {A B} (m : M A) (k : A -> M B) : osafe m -> (forall a, oks m a -> osafe (k a)) -> osafe (bind m k).
  Proof.
    unfold osafe, oks. destruct m as [t o]. cbn [snd]. intros [[a ->]| ->] H; [|now right].
    specialize (H a eq_refl). cbn [bind]. destruct (k a) as [t' o']. exact H.
  Qed.
  Lemma osafe_safe {A} (m : M A) : safe m -> osafe m.
  Proof. intros [[a ->]| ->]; [left; now exists a|now right]. Qed.
  Lemma osafe_lit n prefer (e : expr num) : literal e -> (height e <= n)%nat -> osafe (m_value (simp n prefer e)).
  Proof.
    intros L H. left. exists (EReal (fold_lit e)). apply (proj2 (oks_value _ _)). now apply literal_fold.
  Qed.

  Lemma osafe_mapM n prefer pos zl : List.Forall2 (zlit toR) pos zl -> List.Forall (fun c => (height c <= n)%nat) pos ->
    osafe (mapM (fun c => m_value (simp n prefer c)) pos).
  Proof.
    induction 1 as [|c z pos zl Hc F IH]; intros Hh; cbn [mapM]; [apply osafe_ret|].
    inversion Hh as [|? ? H1 H2]; subst. apply osafe_bind; [apply osafe_lit; [exact (zlit_literal _ _ _ Hc)|exact H1]|].
    intros y _. apply osafe_bind; [now apply IH|]. intros; apply osafe_ret.
  Qed.
  Lemma osafe_ints coefs zl : List.Forall2 (zreal toR) coefs zl -> List.Forall (fun z => ll_min <= z <= ll_max)%Z zl ->
    osafe (int_values coefs).
  Proof.
    induction 1 as [|c z coefs zl (d & -> & Hd) F IH]; intros Hz; cbn [int_values]; [apply osafe_ret|].
    inversion Hz as [|? ? H1 H2]; subst. rewrite (ex_round _ _ E d z Hd).
    assert (K1 : n_eqb d (n_of_Z z) = true) by (apply (ex_eqb _ _ E); now rewrite (ex_of_Z _ _ E)). rewrite K1.
    replace ((ll_min <=? z)%Z && (z <=? ll_max)%Z) with true
      by (symmetry; apply andb_true_iff; split; apply Z.leb_le; lia).
    apply osafe_bind; [now apply IH|]. intros; apply osafe_ret.
  Qed.
  Lemma osafe_rest n prefer zs : (6 <= n)%nat ->
    osafe (rest_roots (simp n prefer) (map (fun z => EReal (n_of_Z z)) zs)).
  Proof.
    intros Hn. destruct zs as [|a [|b [|c [|d zs]]]]; cbn [map rest_roots]; try apply osafe_ret.
    - apply osafe_bind; [apply osafe_lit; [cbn; auto|cbn; lia]|]. intros; apply osafe_ret.
    - apply osafe_bind; [apply osafe_lit; [cbn; auto|cbn; lia]|]. intros y _.
      apply osafe_bind; [apply osafe_lit; [cbn; auto 10|cbn; lia]|]. intros z _.
      apply osafe_bind; [apply osafe_lit; [cbn; auto|cbn; lia]|]. intros; apply osafe_ret.
  Qed.

  Lemma find_zeros_osafe x e l : polynomial toR x e l -> leading l <> 0%Z -> coefficient l 0 <> 0%Z ->
    (forall k, ll_min <= coefficient l k <= ll_max)%Z ->
    exists k, forall n prefer, (k <= n)%nat -> osafe (find_zeros (simp n prefer) e).
  Proof.
    intros Hp Hl H0 Hr.
    pose proof (poly_terms toR _ _ _ Hp) as Ft. pose proof (poly_nonempty toR _ _ _ Hp) as Hne.
    destruct (coefficients_poly toR E x _ _ Ft "" [] [] (or_introl eq_refl) (List.Forall2_nil _) (or_introl eq_refl))
      as (name & pos & Hc & Fz & _ & Htop).
    assert (B : exists k, List.Forall (fun c => (height c <= k)%nat) pos).
    { clear. induction pos as [|c pos [k IH]]; [exists 0%nat; constructor|]. exists (max k (height c)).
      constructor; [lia|]. eapply Forall_impl; [|exact IH]. cbn. intros; lia. }
    destruct B as [k B]. exists (max k 6). intros n prefer Hn. unfold find_zeros.
    change (match rcast pAdd e with Some (EBin _ a b) => flatten OAdd a b | _ => [e] end) with (terms_of e).
    rewrite Hc. apply osafe_bind; [apply osafe_ret|]. intros y Hy. apply (proj1 (oks_ret _ _)) in Hy. subst y.
    rewrite (top_sum_kept _ (Htop Hne)). apply osafe_bind.
    { apply osafe_mapM with (zl := zcoefs l []); [exact Fz|]. eapply Forall_impl; [|exact B]. cbn. intros; lia. }
    intros coefs Hco. pose proof (mapM_zlit toR E Heps _ _ _ _ _ Fz Hco) as Fr.
    destruct (length coefs <=? 1)%nat eqn:E1; [apply osafe_ret|]. apply Nat.leb_gt in E1.
    pose proof (Forall2_length _ _ _ Fr) as Len.
    apply osafe_bind.
    { apply (osafe_ints _ _ Fr). apply Forall_forall. intros z Hz. apply (In_nth _ _ 0%Z) in Hz.
      destruct Hz as (i & _ & <-). rewrite zcoefs_nth. cbn. destruct i; rewrite Z.add_0_r; apply Hr. }
    intros ints Hi. pose proof (int_values_zreal toR E _ _ Fr _ Hi) as ->. rewrite <- Len, Nat.eqb_refl.
    apply osafe_bind.
    { apply osafe_safe, safe_rational_roots.
      - rewrite rev_length. lia.
      - now rewrite zcoefs_hd.
      - now rewrite zcoefs_last. }
    intros [t res] _. apply osafe_bind; [apply osafe_rest; lia|]. intros; apply osafe_ret.
  Qed.
End Safe.

(** Missing: other expressions, coefficients outside the range of long long,
    constant term 0 (a division by zero, above), and signed overflow during the
    search, which this theorem leaves as the only other outcome. *)
Theorem c30_find_zeros_partial :
  forall (num : Type) (N : NumOps num) (toR : num -> R), exact_eps N toR ->
  forall (x : string) (e : expr num) (l : list (Z * nat)),
  polynomial toR x e l -> leading l <> 0%Z -> coefficient l 0 <> 0%Z ->
  (forall k, - 2 ^ 63 <= coefficient l k < 2 ^ 63)%Z ->
  exists k, forall (n : nat) (prefer : bool), (k <= n)%nat ->
    (exists rs, snd (find_zeros (simp n prefer) e) = Ok rs) \/
    snd (find_zeros (simp n prefer) e) = Undef IntOverflow.
Proof.
  intros num N toR [E He] x e l Hp Hl H0 Hr. apply (find_zeros_osafe toR E He x e l Hp Hl H0).
  intros k. specialize (Hr k). unfold ll_min, ll_max. lia.
Qed.
Print Assumptions c30_find_zeros_partial.

Example c30_case :
  let l := [(6%Z, 0%nat); ((-5)%Z, 1%nat); (1%Z, 2%nat)] in
  leading l <> 0%Z /\ coefficient l 0 <> 0%Z /\ forall k, (- 2 ^ 63 <= coefficient l k < 2 ^ 63)%Z.
Proof.
  split; [cbn; lia|]. split; [cbn; lia|]. intros [|[|[|k]]]; cbn; lia.
Qed.

(** ** C31: gcf and getAllFactors *)

(** Whenever both are positive gcf terminates with the greatest common divisor. *)
Theorem c31_gcf :
  forall a b, (0 < a)%Z -> (0 < b)%Z -> gcf a b = ret (Z.gcd a b).
Proof. exact gcf_spec. Qed.
Print Assumptions c31_gcf.

(** gcf with a zero argument divides by zero. *)
Theorem c31_gcf_zero : forall a, (0 <= a)%Z -> gcf a 0 = undef DivByZero.
Proof.
  intros a Ha. unfold gcf. destruct (0 >? a)%Z eqn:G; [apply Z.gtb_lt in G; lia|]. reflexivity.
Qed.
Print Assumptions c31_gcf_zero.

Definition C31_statement : Prop :=
  forall n, (0 < n < 2 ^ 62)%Z ->
  exists l, all_factors n = ret l /\ forall d, In d l <-> ((0 < d)%Z /\ (d | n)%Z).

Theorem c31_refuted : ~ C31_statement.
Proof.
  intros H. destruct (H 6%Z ltac:(lia)) as (l & Hl & K). vm_compute in Hl. injection Hl as <-.
  destruct (proj2 (K 3%Z)) as [H3|[H3|[H3|[]]]]; try discriminate H3. split; [lia|]. now exists 2%Z.
Qed.
Print Assumptions c31_refuted.

Lemma factors_loop_no_overflow n : (0 < n < 2 ^ 62)%Z -> forall k i, (0 < i <= Z.sqrt n + 1)%Z ->
  snd (factors_loop k i n) <> Undef IntOverflow.
Proof.
  intros Hn. induction k as [|k IH]; intros i Hi; cbn [factors_loop]; [discriminate|].
  assert (B : (i * i <= ll_max)%Z).
  { pose proof (Z.sqrt_spec n ltac:(lia)) as [S1 _]. pose proof (Z.sqrt_nonneg n).
    assert (Z.sqrt n < 2 ^ 31)%Z by (apply Z.sqrt_lt_square; lia). unfold ll_max. nia. }
  rewrite ll_in by (split; [unfold ll_min; nia|exact B]). cbn.
  destruct (i * i <=? n)%Z eqn:L; [|discriminate]. apply Z.leb_le in L.
  assert (S1 : (i <= Z.sqrt n)%Z) by (apply Z.sqrt_le_square; lia).
  specialize (IH (i + 1)%Z ltac:(lia)). destruct (factors_loop k (i + 1) n) as [t o]. destruct o; cbn in *; congruence.
Qed.

(** Missing: the divisors above the square root, except n itself. *)
Theorem c31_factors_partial :
  forall n, (0 < n < 2 ^ 62)%Z ->
  exists l, all_factors n = ret l /\
  forall d, In d l <-> ((0 < d)%Z /\ (d | n)%Z /\ (d * d <= n \/ d = n)%Z).
Proof.
  intros n Hn.
  destruct (all_factors_runs n) as [[l Hl]|Hl].
  - exists l. split; [exact Hl|]. intros d. rewrite (all_factors_spec n l) by (unfold oks; now rewrite Hl).
    rewrite Z.abs_eq by lia. split.
    + intros [(H1 & H2 & H3)|[-> H]]; [repeat split; auto; lia|]. repeat split; [lia|apply Z.divide_refl|now right].
    + intros (H1 & H2 & [H3| ->]); [left; repeat split; auto; lia|].
      destruct (Z.eq_dec n 1) as [->|]; [left|right; auto]. repeat split; [lia|lia|apply Z.divide_refl].
  - exfalso. unfold all_factors in Hl.
    pose proof (factors_loop_no_overflow n Hn (S (Z.to_nat (Z.sqrt n))) 1 ltac:(pose proof (Z.sqrt_nonneg n); lia)) as K.
    destruct (factors_loop (S (Z.to_nat (Z.sqrt n))) 1 n) as [t o]. destruct o; cbn [bind snd] in *; try congruence.
    rewrite ll_in in Hl by (unfold ll_min, ll_max; lia). cbn in Hl. congruence.
Qed.
Print Assumptions c31_factors_partial.

(** Of each pair of divisors d * e = n the smaller one is found. *)
Theorem c31_factor_pairs :
  forall n d e, (0 < n < 2 ^ 62)%Z -> (0 < d <= e)%Z -> (d * e = n)%Z ->
  exists l, all_factors n = ret l /\ In d l.
Proof.
  intros n d e Hn Hd He. destruct (c31_factors_partial n Hn) as (l & Hl & K). exists l. split; [exact Hl|].
  apply K. repeat split; [lia|exists e; lia|left; nia].
Qed.
Print Assumptions c31_factor_pairs.

Example c31_case : gcf 12 18 = ret 6%Z /\ all_factors 12 = ret [1; 2; 3; 12]%Z.
Proof. split; vm_compute; reflexivity. Qed.
