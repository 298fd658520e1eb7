(** The value of a product of integer powers (SpecProd.v). *)
From Coq Require Import String Bool Arith ZArith List Lia Reals Lra.
From Coquelicot Require Import Coquelicot.
From Coq Require Import List.
From Verif Require Import Num Expr Spec SpecPoly SpecProd PowProofs PolyProofs ProdProofs.
Import ListNotations.
Open Scope Z_scope.
Open Scope list_scope.

Section Sem.
  Context {num : Type}.
  Variables (lit : num -> Z -> Prop) (toR : num -> R).
  Hypothesis litR : forall c z, lit c z -> toR c = IZR z.
  Variable rho : env.

  Definition fval (n : option string) (k : Z) : C :=
    match n with None => RtoC (IZR k) | Some x => cpow_nat (RtoC (rho x)) (Z.to_nat k) end.
  Fixpoint cprod (fs : list factor) : C :=
    match fs with [] => RtoC 1 | f :: fs => Cmult (fval (fst f) (snd f)) (cprod fs) end.

  Lemma cprod_app a b : cprod (a ++ b) = Cmult (cprod a) (cprod b).
  Proof. induction a as [|f a IH]; cbn [app cprod]; [ring|]. rewrite IH. ring. Qed.
  Lemma fval_unit n : fval n (unit n) = RtoC 1.
  Proof. destruct n; reflexivity. Qed.
  Lemma cpow_nat_add b n m : cpow_nat b (n + m) = Cmult (cpow_nat b n) (cpow_nat b m).
  Proof. induction n as [|n IH]; cbn [Nat.add cpow_nat]; [ring|]. rewrite IH. ring. Qed.
  Lemma fval_join n a b : (n <> None -> 0 <= a /\ 0 <= b) -> fval n (join n a b) = Cmult (fval n a) (fval n b).
  Proof.
    intros H. destruct n as [x|]; cbn -[Z.add Z.mul Z.to_nat].
    - destruct H; [discriminate|]. rewrite Z2Nat.inj_add by assumption. apply cpow_nat_add.
    - now rewrite mult_IZR, RtoC_mult.
  Qed.

  Definition rest (n : option string) (fs : list factor) : list factor := filter (fun f => negb (name_eqb n (fst f))) fs.
  Lemma rest_fine n fs : List.Forall fine fs -> List.Forall fine (rest n fs).
  Proof. intros H. apply List.Forall_forall. intros f Hf. apply filter_In in Hf. rewrite List.Forall_forall in H. now apply H. Qed.
  Lemma cprod_split n fs : List.Forall fine fs -> cprod fs = Cmult (fval n (amount n fs)) (cprod (rest n fs)).
  Proof.
    intros H. induction H as [|f fs Hf H IH]; [cbn [cprod rest filter]; rewrite amount_nil, fval_unit; ring|].
    rewrite amount_cons. cbn [cprod rest filter]. fold (rest n fs). destruct (name_eqb n (fst f)) eqn:E; cbn [negb cprod].
    - apply name_eqb_eq in E. rewrite IH, fval_join, <- E; [ring|]. intros Hn. pose proof (amount_fine n fs H) as K.
      unfold fine in Hf. rewrite <- E in Hf. destruct n; [lia|congruence].
    - rewrite IH. ring.
  Qed.
  Lemma amount_rest n m fs : amount m (rest n fs) = if name_eqb m n then unit m else amount m fs.
  Proof.
    induction fs as [|f fs IH]; [cbn [rest filter]; rewrite amount_nil; now destruct (name_eqb m n)|].
    cbn [rest filter]. fold (rest n fs). rewrite (amount_cons m f fs). destruct (name_eqb n (fst f)) eqn:E; cbn [negb].
    - apply name_eqb_eq in E. rewrite IH, <- E. now destruct (name_eqb m n).
    - rewrite amount_cons, IH. destruct (name_eqb m n) eqn:F; [|reflexivity]. apply name_eqb_eq in F. subst m. now rewrite E.
  Qed.
  Lemma rest_length n fs : (length (rest n fs) <= length fs)%nat.
  Proof. induction fs as [|f fs IH]; cbn [rest filter length]; [lia|]. fold (rest n fs). destruct (negb _); cbn [length]; lia. Qed.
  Lemma cprod_one : forall m fs, (length fs <= m)%nat -> List.Forall fine fs -> (forall n, amount n fs = unit n) -> cprod fs = RtoC 1.
  Proof.
    induction m as [|m IH]; intros fs L F H; (destruct fs as [|f fs]; [reflexivity|]); [cbn in L; lia|].
    rewrite (cprod_split (fst f)), H, fval_unit, (IH (rest (fst f) (f :: fs))); auto using rest_fine.
    - ring.
    - cbn [rest filter]. rewrite name_eqb_refl. cbn [negb]. pose proof (rest_length (fst f) fs) as K. unfold rest in K. cbn in L. lia.
    - intros n. rewrite amount_rest, H. now destruct (name_eqb n (fst f)).
  Qed.
  Lemma cprod_amounts : forall m a b, (length a <= m)%nat -> List.Forall fine a -> List.Forall fine b ->
    (forall n, amount n a = amount n b) -> cprod a = cprod b.
  Proof.
    induction m as [|m IH]; intros a b L Fa Fb H; (destruct a as [|f a]; [symmetry; apply (cprod_one (length b)); auto; intros n; now rewrite <- H|]); [cbn in L; lia|].
    rewrite (cprod_split (fst f) (f :: a) Fa), (cprod_split (fst f) b Fb), H. f_equal. apply IH; auto using rest_fine.
    - cbn [rest filter]. rewrite name_eqb_refl. cbn [negb]. pose proof (rest_length (fst f) a) as K. unfold rest in K. cbn in L. lia.
    - intros n. rewrite !amount_rest, H. reflexivity.
  Qed.

  Lemma ev_fac e f : fac lit e f -> ev toR e rho (fval (fst f) (snd f)).
  Proof.
    intros H. destruct H as [c z Hc Z0 Z1|p x k Hp K]; cbn [fst snd fval].
    - cbn. now rewrite (litR _ _ Hc).
    - destruct Hp as [x|x c k Hc K0 K1]; cbn [ev].
      + change (Z.to_nat 1) with 1%nat. cbn [cpow_nat]. ring.
      + exists (RtoC (rho x)), (RtoC (IZR k)). split; [reflexivity|]. split; [now rewrite (litR _ _ Hc)|].
        destruct (Z.to_nat k) as [|n] eqn:En; [lia|]. apply cpow_pos. f_equal. rewrite <- En, INR_IZR_INZ, Z2Nat.id; [reflexivity|lia].
  Qed.
  Lemma ev_product e fs : product lit e fs -> ev toR e rho (cprod fs).
  Proof.
    intros H. induction H as [e f Hf|a b fa fb Ha IHa Hb IHb].
    - cbn [cprod]. replace (Cmult (fval (fst f) (snd f)) (RtoC 1)) with (fval (fst f) (snd f)) by ring. now apply ev_fac.
    - cbn [ev]. exists (cprod fa), (cprod fb). rewrite cprod_app. auto.
  Qed.
End Sem.
