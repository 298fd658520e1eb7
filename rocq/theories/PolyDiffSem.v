(** The derivative of the function a sum of integer terms denotes (SpecPoly.v). *)
From Coq Require Import String Bool Arith ZArith List Lia Reals Lra.
From Coquelicot Require Import Coquelicot.
From Verif Require Import Num Expr Spec SpecPoly PowProofs PolyProofs PolySem PolyDiff.
Import ListNotations.
Open Scope Z_scope.
Open Scope list_scope.

Lemma powerRZ_pos r k : 0 < k -> powerRZ r k = (r ^ Z.to_nat k)%R.
Proof. intros H. destruct k as [|p|p]; try lia. reflexivity. Qed.
Lemma powerRZ_neg' r k : k < 0 -> powerRZ r k = (/ r ^ Z.to_nat (- k))%R.
Proof. intros H. destruct k as [|p|p]; try lia. reflexivity. Qed.

Lemma derive_powerRZ r k : k <> 0 -> (r <> 0%R \/ 0 < k) -> is_derive (fun t => powerRZ t k) r (IZR k * powerRZ r (k - 1))%R.
Proof.
  intros K0 H. destruct (Z_lt_dec 0 k) as [L|L].
  - apply (is_derive_ext (fun t => t ^ Z.to_nat k)%R); [intros t; now rewrite powerRZ_pos|].
    evar_last; [apply (is_derive_pow (fun t => t) (Z.to_nat k) r 1%R); exact (is_derive_id r)|].
    assert (E : INR (Z.to_nat k) = IZR k) by (rewrite INR_IZR_INZ, Z2Nat.id by lia; reflexivity). rewrite E.
    destruct (Z.eq_dec k 1) as [->|K1]; [simpl; ring|]. rewrite (powerRZ_pos r (k - 1)) by lia.
    replace (Z.to_nat (k - 1)) with (Init.Nat.pred (Z.to_nat k)) by lia. ring.
  - destruct H as [H|H]; [|lia].
    apply (is_derive_ext (fun t => / (t ^ Z.to_nat (- k)))%R); [intros t; now rewrite powerRZ_neg' by lia|].
    evar_last; [apply is_derive_inv; [apply (is_derive_pow (fun t => t) (Z.to_nat (- k)) r 1%R); exact (is_derive_id r)|now apply pow_nonzero]|].
    assert (E : INR (Z.to_nat (- k)) = (- IZR k)%R) by (rewrite INR_IZR_INZ, Z2Nat.id, opp_IZR by lia; reflexivity). rewrite E.
    rewrite (powerRZ_neg' r (k - 1)) by lia. replace (Z.to_nat (- (k - 1))) with (S (Z.to_nat (- k))) by lia.
    destruct (Z.to_nat (- k)) as [|n] eqn:En; [lia|]. cbn [Init.Nat.pred pow]. field. split; [now apply pow_nonzero|exact H].
Qed.

(* the same sum over the reals *)
Definition rval (rho : env) (k : key) : R := match k with None => 1%R | Some (y, j) => powerRZ (rho y) j end.
Fixpoint rsum (rho : env) (ts : list monomial) : R :=
  match ts with [] => 0%R | t :: ts => (IZR (snd t) * rval rho (fst t) + rsum rho ts)%R end.
Lemma kval_rval rho p : kok rho p -> kval rho (Some p) = RtoC (rval rho (Some p)).
Proof.
  destruct p as [y k]. intros [K0 K]. cbn [kval rval fst snd] in *. destruct (Req_dec (rho y) 0) as [E|E].
  - destruct K as [K|K]; [rewrite E in K; now destruct K|]. rewrite E, cpowz_0 by exact K. rewrite powerRZ_pos, pow_i by lia. reflexivity.
  - now apply cpowz_R.
Qed.
Lemma csum_rsum rho ts : (forall p, In (Some p) (keys ts) -> kok rho p) -> csum rho ts = RtoC (rsum rho ts).
Proof.
  induction ts as [|[k z] ts IH]; intros H; [reflexivity|]. cbn [csum rsum fst snd].
  rewrite IH by (intros p Hp; apply H; now right). rewrite RtoC_plus, RtoC_mult. do 2 f_equal.
  destruct k as [p|]; [|reflexivity]. apply kval_rval, H. now left.
Qed.

Section Values.
  Variable rho : env.
  Variable x : string.
  Lemma upd_same t : upd rho x t x = t.
  Proof. unfold upd. now rewrite String.eqb_refl. Qed.

  Lemma derive_rsum ts : (forall p, In (Some p) (keys ts) -> kok rho p) ->
    is_derive (fun t => rsum (upd rho x t) ts) (rho x) (rsum rho (deriv x ts)).
  Proof.
    induction ts as [|[k z] ts IH]; intros H; cbn [rsum deriv map].
    - exact (is_derive_const 0%R (rho x)).
    - fold (deriv x ts). apply (is_derive_plus (fun t => (IZR (snd (k, z)) * rval (upd rho x t) (fst (k, z)))%R) (fun t => rsum (upd rho x t) ts)).
      + cbn [fst snd]. assert (C : forall a : R, is_derive (fun _ : R => a) (rho x) (IZR 0 * 1)%R)
          by (intros a; rewrite Rmult_0_l; exact (is_derive_const a (rho x))).
        destruct k as [[y k]|]; cbn [rval deriv1 fst snd]; [|apply C].
        destruct (String.eqb_spec y x) as [->|Hy].
        * destruct (H (x, k)) as [K0 K]; [now left|]. cbn [fst snd] in *.
          apply (is_derive_ext (fun t => IZR z * powerRZ t k)%R); [intros t; now rewrite upd_same|].
          assert (D : is_derive (fun t => IZR z * powerRZ t k)%R (rho x) (IZR z * (IZR k * powerRZ (rho x) (k - 1)))%R).
          { apply (is_derive_scal (fun t => powerRZ t k)). apply derive_powerRZ; [exact K0|].
            destruct K as [K|K]; [left; intros E; apply K; now rewrite E|now right]. }
          destruct (Z.eqb_spec k 1) as [->|K1]; cbn [rval fst snd]; (evar_last; [exact D|]).
          -- simpl. ring.
          -- rewrite mult_IZR. ring.
        * cbn [rval fst snd]. apply (is_derive_ext (fun _ => IZR z * powerRZ (rho y) k)%R); [|apply C].
          intros t. unfold upd. destruct (String.eqb_spec y x); [contradiction|reflexivity].
      + apply IH. intros p Hp. apply H. now right.
  Qed.
  (* the powers of the derivative have values too *)
  Lemma deriv_kok ts : (forall p, In (Some p) (keys ts) -> kok rho p) -> forall p, In (Some p) (keys (deriv x ts)) -> kok rho p.
  Proof.
    intros H p Hp. destruct (deriv_keys x p ts Hp) as (j & -> & J & Hj). destruct (H _ Hj) as [K0 K]. cbn [fst snd] in *.
    split; [exact J|]. cbn [fst snd]. destruct K as [K|K]; [now left|]. right. lia.
  Qed.
End Values.
