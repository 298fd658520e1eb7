(** The functions that a sum of integer terms in one variable and its integral
    denote. *)
From Coq Require Import String Bool Arith ZArith Lia Reals Lra Permutation.
From Coquelicot Require Import Coquelicot.
From Coq Require Import List.
From Verif Require Import Base Num Expr Simplify Spec SpecPoly SpecPolyInt TreeProofs PowProofs SemProofs SimplifySound PolyProofs PolySem PolyDiffSem SumProofs PolyInt PropertiesIntegral.
Import ListNotations.
Open Scope string_scope.
Open Scope Z_scope.
Open Scope list_scope.

(** ** Powers with different exponents are independent *)
Definition psum (l : list (R * nat)) (t : R) : R := fold_right (fun p s => fst p * t ^ snd p + s)%R 0%R l.
(* [D]: any set of numbers with 1 and with the double of each *)
Lemma psum_zero (D : R -> Prop) : D 1%R -> (forall t, D t -> D (2 * t)%R) ->
  forall n l, length l = n -> (forall t, D t -> psum l t = 0)%R -> Forall (fun p => fst p <> 0%R) l -> NoDup (map snd l) -> l = [].
Proof.
  intros D1' DD. induction n as [|n IH]; intros l Hl H0 Hc Hd; [now destruct l|]. destruct l as [|[c m] l]; [discriminate|]. exfalso.
  inversion Hc as [|? ? C1 C2]; subst. inversion Hd as [|? ? D1 D2]; subst. cbn [fst snd] in *.
  set (l' := map (fun p => (fst p * (2 ^ snd p - 2 ^ m), snd p)%R) l).
  assert (E : forall t, (psum l' t = psum l (2 * t) - 2 ^ m * psum l t)%R).
  { intros t. unfold l', psum. clear. induction l as [|p l IHl]; cbn [map fold_right fst snd]; [ring|]. rewrite IHl, Rpow_mult_distr. ring. }
  assert (K : l' = []).
  { apply IH.
    - unfold l'. rewrite map_length. cbn in Hl. lia.
    - intros t Ht. rewrite E. pose proof (H0 t Ht) as A. pose proof (H0 (2 * t)%R (DD t Ht)) as B. cbn [psum fold_right fst snd] in A, B.
      fold (psum l t) in A. fold (psum l (2 * t)) in B. rewrite Rpow_mult_distr in B.
      replace (psum l t) with (- (c * t ^ m))%R by lra. replace (psum l (2 * t)) with (- (c * (2 ^ m * t ^ m)))%R by lra. ring.
    - unfold l'. apply Forall_map. rewrite Forall_forall in *. intros [d j] Hp. cbn [fst snd]. apply Rmult_integral_contrapositive. split; [exact (C2 _ Hp)|].
      intros K. assert (J : (2 ^ j = 2 ^ m)%R) by lra. assert (j <> m) by (intros ->; apply D1; now apply (in_map snd) in Hp).
      destruct (Nat.lt_total j m) as [L|[L|L]]; [|contradiction|]; [pose proof (Rlt_pow 2 j m ltac:(lra) L)|pose proof (Rlt_pow 2 m j ltac:(lra) L)]; lra.
    - unfold l'. rewrite map_map. exact D2. }
  destruct l; [|discriminate]. specialize (H0 1%R D1'). cbn in H0. rewrite pow1 in H0. lra.
Qed.

Section Values.
  Context {num : Type} {N : NumOps num}.
  Variables (lit : num -> Z -> Prop) (ok : Z -> Prop) (toR : num -> R).
  Hypothesis IL : IntLits N lit ok.
  Hypothesis EX : Exact N toR.
  Hypothesis HR : forall c z, lit c z -> toR c = IZR z.
  Variables (x : string) (top : Z).
  Hypothesis Hok : ok top.
  Notation E := (expr num).
  Notation prim := (prim lit top x).
  Notation Prim := (Prim lit top x).
  Notation item := (@item num).

  Definition degree (i : item) : Z := snd (ikey i).
  (* the value of an integrated term, and its derivative *)
  Definition ival (i : item) (t : R) : R := (toR (coef i) * powerRZ t (degree i))%R.
  Definition dval (i : item) (t : R) : R := (toR (coef i) * (IZR (degree i) * powerRZ t (degree i - 1)))%R.
  Definition total_of (f : item -> R -> R) (l : list item) (t : R) : R := fold_right (fun i s => f i t + s)%R 0%R l.

  Lemma total_of_app f a b t : total_of f (a ++ b) t = (total_of f a t + total_of f b t)%R.
  Proof. unfold total_of. induction a as [|i a IH]; cbn; [ring|rewrite IH; ring]. Qed.
  Lemma total_of_perm f a b t : Permutation a b -> total_of f a t = total_of f b t.
  Proof. intros H. unfold total_of. induction H; cbn; try lra. Qed.

  Lemma one_R : toR n1 = 1%R. Proof. apply (ex_of_Z N toR EX). Qed.
  Lemma two_R : toR n2 = 2%R. Proof. apply (ex_of_Z N toR EX). Qed.

  Lemma derive_ival i t : 1 <= degree i -> is_derive (ival i) t (dval i t).
  Proof.
    intros H. unfold ival, dval. apply (is_derive_scal (fun t => powerRZ t (degree i))). apply derive_powerRZ; [lia|right; lia].
  Qed.
  Lemma derive_total l t : Forall (fun i => 1 <= degree i) l -> is_derive (total_of ival l) t (total_of dval l t).
  Proof.
    intros H. induction H as [|i l Hi H IH]; [exact (is_derive_const 0%R t)|].
    exact (is_derive_plus (ival i) (total_of ival l) t _ _ (derive_ival i t Hi) IH).
  Qed.

  Lemma prim_value e t i : prim e t i -> forall rho, (IZR (snd t) * rval rho (fst t))%R = dval i (rho x).
  Proof.
    intros H rho. unfold dval, degree. destruct H as [c z Hc Hz|Ht|c k Hc Hk|d z Hd Z0 Z1 Ht|d z c k Hd Z0 Z1 Hc Hk]; cbn [fst snd coef ikey rval].
    - rewrite (HR _ _ Hc). simpl. ring.
    - rewrite (ex_div N toR EX); rewrite two_R; [|lra]. rewrite one_R. simpl. field.
    - pose proof (HR _ _ (lit_next lit ok IL top Hok c k Hc Hk)) as Ln. assert (Kn : IZR (k + 1) <> 0%R) by (apply not_0_IZR; lia).
      rewrite (ex_div N toR EX); rewrite Ln; [|exact Kn]. rewrite one_R. replace (k + 1 - 1) with k by lia. field. exact Kn.
    - rewrite (ex_mul N toR EX), (ex_div N toR EX); rewrite two_R; [|lra]. rewrite (HR _ _ Hd), one_R. simpl. field.
    - pose proof (HR _ _ (lit_next lit ok IL top Hok c k Hc Hk)) as Ln. assert (Kn : IZR (k + 1) <> 0%R) by (apply not_0_IZR; lia).
      rewrite (ex_mul N toR EX), (ex_div N toR EX); rewrite Ln; [|exact Kn]. rewrite (HR _ _ Hd), one_R. replace (k + 1 - 1) with k by lia. field. exact Kn.
  Qed.
  Lemma prims_value ps rho : Forall Prim ps -> rsum rho (map (fun p => snd (fst p)) ps) = total_of dval (map snd ps) (rho x).
  Proof.
    intros H. induction H as [|p ps Hp H IH]; [reflexivity|]. cbn [map rsum total_of fold_right]. rewrite IH.
    f_equal. exact (prim_value _ _ _ Hp rho).
  Qed.
  Lemma prim_degree e t i : prim e t i -> 1 <= degree i /\ fst (ikey i) = x.
  Proof. intros H. destruct H; cbn; lia || (split; [lia|reflexivity]). Qed.

  Lemma ev_norm i rho : wf lit i -> 1 <= degree i -> fst (ikey i) = x -> ev toR (norm i) rho (RtoC (ival i (rho x))).
  Proof.
    intros Hw Hd Hi. unfold wf in Hw. assert (K : kok rho (fst (ikey i), snd (ikey i))) by (split; [|right]; cbn; unfold degree in *; lia).
    pose proof (proj2 (PolySem.ev_power lit toR HR rho _ _ _ Hw) K) as V. rewrite (kval_rval _ _ K) in V. cbn [rval] in V.
    unfold ival. fold (degree i) in V. rewrite Hi in V. unfold norm. destruct (n_eqb (coef i) n1) eqn:E1.
    - apply (ex_eqb N toR EX) in E1. rewrite E1, one_R, Rmult_1_l. exact V.
    - rewrite RtoC_mult. apply ev_mul; [reflexivity|exact V].
  Qed.
  Lemma ev_tree d l t rho vs : tree_over OAdd d l t -> List.Forall2 (fun (e : E) v => ev toR e rho (RtoC v)) l vs ->
    ev toR t rho (RtoC (fold_right Rplus 0%R vs)).
  Proof.
    intros H. revert vs. induction H as [d e|d l1 l2 a b H1 IH1 H2 IH2]; intros vs F.
    - inversion F as [|? v ? vs' Hv F']; subst. inversion F'; subst. cbn. now rewrite Rplus_0_r.
    - apply Forall2_app_inv_l in F. destruct F as (v1 & v2 & F1 & F2 & ->). rewrite fold_right_app.
      replace (fold_right Rplus (fold_right Rplus 0 v2) v1)%R with (fold_right Rplus 0 v1 + fold_right Rplus 0 v2)%R.
      + rewrite RtoC_plus. apply ev_add; auto.
      + clear. induction v1 as [|v v1 IH]; cbn; [ring|rewrite <- IH; ring].
  Qed.
  Lemma ev_kept kept r rho : tree OAdd (map norm kept ++ [EVar "C"]) = Some r -> Forall (wf lit) kept ->
    Forall (fun i => 1 <= degree i /\ fst (ikey i) = x) kept -> ev toR r rho (RtoC (total_of ival kept (rho x) + rho "C")).
  Proof.
    intros Hr Hw Hd. replace (total_of ival kept (rho x) + rho "C")%R with (fold_right Rplus 0%R (map (fun i => ival i (rho x)) kept ++ [rho "C"])).
    - eapply ev_tree; [eapply tree_tree_over; exact Hr|]. apply Forall2_app; [|repeat constructor].
      clear Hr. induction Hw as [|i kept Hi Hw IH]; [constructor|]. destruct (Forall_inv Hd) as [D1 D2]. apply Forall_inv_tail in Hd. constructor; [|apply IH; auto].
      apply ev_norm; auto.
    - rewrite fold_right_app. cbn. unfold total_of. clear. induction kept as [|i kept IH]; cbn; [ring|rewrite IH; ring].
  Qed.

  Lemma eps_R : (0 <= toR n_eps)%R.
  Proof.
    assert (L : lit n0 0) by (apply (il_of_Z _ _ _ IL); eapply (il_ok_le _ _ _ IL); [apply (il_ok_2 _ _ _ IL)|lia]).
    pose proof (il_tiny _ _ _ IL n0 0 L) as H. cbn in H. apply (ex_leb N toR EX) in H.
    rewrite (ex_abs N toR EX), (HR _ _ L), Rabs_R0 in H. exact H.
  Qed.
  Lemma big_R i : big i -> toR (coef i) <> 0%R.
  Proof.
    unfold big, tiny. intros H K. assert (T : n_leb (n_abs (coef i)) n_eps = true); [|congruence].
    apply (ex_leb N toR EX). rewrite (ex_abs N toR EX), K, Rabs_R0. apply eps_R.
  Qed.
  (* terms that are lost change the derivative somewhere *)
  Lemma lost_value lost : Forall big lost -> Forall (fun i => 1 <= degree i /\ fst (ikey i) = x) lost -> NoDup (ikeys lost) ->
    (forall t, total_of dval lost t = 0)%R -> lost = [].
  Proof.
    intros Hb Hd Hn H0. set (l := map (fun i => (toR (coef i) * IZR (degree i), Z.to_nat (degree i - 1))%R) lost).
    assert (K : l = []).
    { apply (psum_zero (fun _ => True) I (fun _ _ => I) (length l) l eq_refl).
      - intros t _. rewrite <- (H0 t). unfold l, psum, total_of, dval. clear - Hd. induction Hd as [|i lost [Hi _] Hd IH]; [reflexivity|]. cbn [map fold_right fst snd].
        rewrite IH. f_equal. rewrite Rmult_assoc. do 2 f_equal. destruct (Z.eq_dec (degree i) 1) as [->|D1]; [reflexivity|]. now rewrite powerRZ_pos by lia.
      - unfold l. apply Forall_map. rewrite Forall_forall in *. intros i Hi. cbn [fst]. apply Rmult_integral_contrapositive.
        split; [now apply big_R, Hb|]. apply not_0_IZR. specialize (Hd i Hi). lia.
      - unfold l. rewrite map_map. cbn [snd]. clear - Hd Hn. induction Hd as [|i lost [D1 D2] Hd IH]; cbn; [constructor|].
        cbn in Hn. apply NoDup_cons_iff in Hn. destruct Hn as [N1 N2]. constructor; [|now apply IH]. intros K. apply N1. apply in_map_iff in K. destruct K as (j & K1 & K2).
        rewrite Forall_forall in Hd. destruct (Hd j K2) as [J1 J2]. apply in_map_iff. exists j. split; [|exact K2].
        rewrite (surjective_pairing (ikey j)), (surjective_pairing (ikey i)), J2, D2. unfold degree in *. f_equal. lia. }
    unfold l in K. now destruct lost.
  Qed.
End Values.
