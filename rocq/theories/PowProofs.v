(** Laws of the power and logarithm of the specification. *)
From Coq Require Import String Bool ZArith Reals Lra Lia List.
From Coquelicot Require Import Coquelicot.
From Verif Require Import Num Expr Spec.
Import ListNotations.
Open Scope R_scope.

Lemma RtoC_neq x y : x <> y -> RtoC x <> RtoC y.
Proof. intros H E. apply H. now apply RtoC_inj. Qed.

Lemma RtoC_0 x : RtoC x = RtoC 0 -> x = 0.
Proof. apply RtoC_inj. Qed.

Lemma C1_neq_0 : RtoC 1 <> RtoC 0.
Proof. apply RtoC_neq. lra. Qed.

Lemma Cmult_integral (a b : C) : Cmult a b = RtoC 0 -> a = RtoC 0 \/ b = RtoC 0.
Proof.
  intros H. destruct (Ceq_dec a (RtoC 0)) as [E|E]; auto.
  right. replace b with (Cmult (Cinv a) (Cmult a b)).
  - rewrite H. apply Cmult_0_r.
  - rewrite Cmult_assoc, Cinv_l by assumption. apply Cmult_1_l.
Qed.

Lemma Cinv_neq_0 (a : C) : a <> RtoC 0 -> Cinv a <> RtoC 0.
Proof.
  intros H E. apply C1_neq_0. rewrite <- (Cinv_r a H), E. apply Cmult_0_r.
Qed.

Lemma Cmult_neq_0' (a b : C) : a <> RtoC 0 -> b <> RtoC 0 -> Cmult a b <> RtoC 0.
Proof. intros Ha Hb E. destruct (Cmult_integral _ _ E); auto. Qed.

Lemma RtoC_Cinv (x : R) : x <> 0 -> RtoC (/ x) = Cinv (RtoC x).
Proof. intros H. now apply RtoC_inv. Qed.

Lemma cpow_nat_R x n : cpow_nat (RtoC x) n = RtoC (x ^ n).
Proof. induction n as [|n IH]; simpl; auto. now rewrite IH, RtoC_mult. Qed.

Lemma cpow_nat_neq_0 b n : b <> RtoC 0 -> cpow_nat b n <> RtoC 0.
Proof.
  intros H. induction n as [|n IH]; simpl; [apply C1_neq_0|]. now apply Cmult_neq_0'.
Qed.

Lemma cpow_nat_0 n : cpow_nat (RtoC 0) (S n) = RtoC 0.
Proof. simpl. apply Cmult_0_l. Qed.

Definition cpowz (b : C) (z : Z) : C :=
  match z with
  | Z0 => RtoC 1
  | Zpos p => cpow_nat b (Pos.to_nat p)
  | Zneg p => Cinv (cpow_nat b (Pos.to_nat p))
  end.

Lemma IZR_INR_S n : INR (S n) = IZR (Z.of_nat (S n)).
Proof. apply INR_IZR_INZ. Qed.

Lemma cpow_cpowz b z : (b <> RtoC 0 \/ (0 < z)%Z) -> cpow b (RtoC (IZR z)) (cpowz b z).
Proof.
  intros H. destruct z as [|p|p]; simpl.
  - destruct H as [H|H]; [|lia]. now constructor.
  - destruct (Pos2Nat.is_succ p) as [n E]. rewrite E. apply cpow_pos.
    f_equal. rewrite <- E. rewrite INR_IZR_INZ. f_equal. now rewrite positive_nat_Z.
  - destruct H as [H|H]; [|lia].
    destruct (Pos2Nat.is_succ p) as [n E]. rewrite E. apply cpow_neg; auto.
    f_equal. rewrite <- E. rewrite INR_IZR_INZ. rewrite <- opp_IZR. f_equal. now rewrite positive_nat_Z.
Qed.

Lemma cpow_inv b p v : cpow b p v ->
  (exists z, p = RtoC (IZR z) /\ (b <> RtoC 0 \/ (0 < z)%Z) /\ v = cpowz b z) \/
  (exists x r, b = RtoC x /\ 0 < x /\ p = RtoC r /\ v = RtoC (Rpower x r)) \/
  (exists r, b = RtoC 0 /\ p = RtoC r /\ 0 < r /\ v = RtoC 0).
Proof.
  intros H. destruct H.
  - left. exists (Z.of_nat (S n)). rewrite IZR_INR_S in H. repeat split; auto; [right; lia|].
    simpl. now rewrite SuccNat2Pos.id_succ.
  - left. exists 0%Z. auto.
  - left. exists (- Z.of_nat (S n))%Z. rewrite IZR_INR_S in H. rewrite opp_IZR. repeat split; auto.
    simpl. now rewrite SuccNat2Pos.id_succ.
  - right; left. eauto 6.
  - right; right. eauto 6.
Qed.

Lemma cpowz_R x z : x <> 0 -> cpowz (RtoC x) z = RtoC (powerRZ x z).
Proof.
  intros H. destruct z; simpl; auto.
  - apply cpow_nat_R.
  - rewrite cpow_nat_R. rewrite RtoC_Cinv; auto. now apply pow_nonzero.
Qed.

Lemma cpowz_0 z : (0 < z)%Z -> cpowz (RtoC 0) z = RtoC 0.
Proof.
  intros H. destruct z; try lia. simpl. destruct (Pos2Nat.is_succ p) as [n ->]. apply cpow_nat_0.
Qed.

Lemma cpowz_neq_0 b z : b <> RtoC 0 -> cpowz b z <> RtoC 0.
Proof.
  intros H. destruct z; simpl; [apply C1_neq_0|now apply cpow_nat_neq_0|].
  apply Cinv_neq_0. now apply cpow_nat_neq_0.
Qed.

Lemma cpowz_Rpower x z : 0 < x -> cpowz (RtoC x) z = RtoC (Rpower x (IZR z)).
Proof.
  intros H. rewrite cpowz_R by lra. f_equal. now apply powerRZ_Rpower.
Qed.

Lemma cpow_real_iff x r v : 0 < x -> cpow (RtoC x) (RtoC r) v <-> v = RtoC (Rpower x r).
Proof.
  intros Hx. split.
  - intros H. apply cpow_inv in H. destruct H as [(z & E & _ & ->)|[(y & s & E1 & E2 & E3 & ->)|(s & E1 & E2 & E3 & ->)]].
    + apply RtoC_inj in E; subst. now apply cpowz_Rpower.
    + apply RtoC_inj in E1, E3. now subst.
    + apply RtoC_inj in E1. lra.
  - intros ->. now apply (cpow_real _ _ x r).
Qed.

Lemma cpow_fun b p v w : cpow b p v -> cpow b p w -> v = w.
Proof.
  intros H1 H2. apply cpow_inv in H1.
  destruct H1 as [(z & E & Hz & ->)|[(y & s & E1 & E2 & E3 & ->)|(s & E1 & E2 & E3 & ->)]].
  - subst p. apply cpow_inv in H2.
    destruct H2 as [(z' & E & Hz' & ->)|[(y & s & E1 & E2 & E3 & ->)|(s & E1 & E2 & E3 & ->)]].
    + apply RtoC_inj in E. apply eq_IZR in E. now subst.
    + subst b. apply RtoC_inj in E3; subst. now apply cpowz_Rpower.
    + subst b. apply cpowz_0. apply RtoC_inj in E2. subst. now apply lt_IZR.
  - subst. symmetry. now apply (proj1 (cpow_real_iff y s w E2)).
  - subst. apply cpow_inv in H2.
    destruct H2 as [(z' & E & Hz' & ->)|[(y & s' & E1 & E2 & E3' & ->)|(s' & E1 & E2 & E3' & ->)]]; auto.
    + symmetry. apply cpowz_0. apply RtoC_inj in E. subst. now apply lt_IZR.
    + apply RtoC_inj in E1. lra.
Qed.

(** The exponent of a defined power is real. *)
Lemma cpow_exponent_real b p v : cpow b p v -> exists r, p = RtoC r.
Proof. destruct 1; eauto. Qed.

Lemma cpowz_succ b z : b <> RtoC 0 -> cpowz b (z + 1) = Cmult b (cpowz b z).
Proof.
  intros H. destruct z as [|p|p].
  - simpl. reflexivity.
  - change (Z.pos p + 1)%Z with (Z.pos (p + 1)). unfold cpowz.
    rewrite Pos2Nat.inj_add. change (Pos.to_nat 1) with 1%nat. rewrite Nat.add_1_r. reflexivity.
  - destruct (Pos.eq_dec p 1) as [->|Hp].
    + simpl. rewrite Cmult_1_r. symmetry. now apply Cinv_r.
    + assert (E : (Z.neg p + 1 = Z.neg (Pos.pred p))%Z) by lia.
      rewrite E. unfold cpowz.
      assert (Ep : Pos.to_nat p = S (Pos.to_nat (Pos.pred p))) by lia.
      rewrite Ep. simpl. field. split; auto. now apply cpow_nat_neq_0.
Qed.

Lemma cpowz_add b z w : b <> RtoC 0 -> cpowz b (z + w) = Cmult (cpowz b z) (cpowz b w).
Proof.
  intros H. revert w. apply (Z.peano_ind (fun w => cpowz b (z + w) = Cmult (cpowz b z) (cpowz b w))).
  - rewrite Z.add_0_r. simpl. now rewrite Cmult_1_r.
  - intros w IH. unfold Z.succ. rewrite Z.add_assoc, cpowz_succ, IH, cpowz_succ by assumption. ring.
  - intros w IH.
    assert (E1 : cpowz b (z + w) = Cmult b (cpowz b (z + Z.pred w))).
    { rewrite <- cpowz_succ by assumption. f_equal. lia. }
    assert (E2 : cpowz b w = Cmult b (cpowz b (Z.pred w))).
    { rewrite <- cpowz_succ by assumption. f_equal. lia. }
    rewrite E2, E1 in IH.
    assert (F : Cmult (Cinv b) (Cmult b (cpowz b (z + Z.pred w))) =
                Cmult (Cinv b) (Cmult (cpowz b z) (Cmult b (cpowz b (Z.pred w))))) by now rewrite IH.
    rewrite Cmult_assoc, Cinv_l, Cmult_1_l in F by assumption. rewrite F. field. assumption.
Qed.

Lemma cpowz_opp b z : b <> RtoC 0 -> cpowz b (- z) = Cinv (cpowz b z).
Proof.
  intros H. assert (E : Cmult (cpowz b (- z)) (cpowz b z) = RtoC 1).
  { rewrite <- cpowz_add by assumption. now replace (- z + z)%Z with 0%Z by lia. }
  pose proof (cpowz_neq_0 b z H) as Hn.
  replace (cpowz b (- z)) with (Cmult (Cmult (cpowz b (- z)) (cpowz b z)) (Cinv (cpowz b z))).
  - rewrite E. apply Cmult_1_l.
  - field. assumption.
Qed.

Lemma cpowz_mult b z w : b <> RtoC 0 -> cpowz b (z * w) = cpowz (cpowz b z) w.
Proof.
  intros H. pose proof (cpowz_neq_0 b z H) as Hn. revert w.
  apply (Z.peano_ind (fun w => cpowz b (z * w) = cpowz (cpowz b z) w)).
  - now rewrite Z.mul_0_r.
  - intros w IH. unfold Z.succ. rewrite cpowz_succ by assumption.
    rewrite Z.mul_add_distr_l, Z.mul_1_r, cpowz_add, IH by assumption. ring.
  - intros w IH.
    replace (z * Z.pred w)%Z with (z * w + - z)%Z by lia.
    rewrite cpowz_add, IH, cpowz_opp by assumption.
    replace w with (Z.pred w + 1)%Z at 1 by lia. rewrite cpowz_succ by assumption. field. assumption.
Qed.

(** ** Laws of exponents *)

Lemma RtoC_Rpower_neq x r : RtoC (Rpower x r) <> RtoC 0.
Proof. apply RtoC_neq. unfold Rpower. pose proof (exp_pos (r * ln x)). lra. Qed.

Lemma cpow_neq_0 b p v : cpow b p v -> b <> RtoC 0 -> v <> RtoC 0.
Proof.
  intros H Hb. apply cpow_inv in H. destruct H as [(z & E & Hz & ->)|[(y & s & E1 & E2 & E3 & ->)|(s & E1 & E2 & E3 & ->)]].
  - now apply cpowz_neq_0.
  - apply RtoC_Rpower_neq.
  - now destruct Hb.
Qed.

(** A power of a non-zero base, with its exponent either an integer or the
    base a positive real. *)
Lemma cpow_base0_inv p v : cpow (RtoC 0) p v -> exists r, p = RtoC r /\ 0 < r /\ v = RtoC 0.
Proof.
  intros H. apply cpow_inv in H. destruct H as [(z & E & Hz & ->)|[(y & s & E1 & E2 & E3 & ->)|(s & E1 & E2 & E3 & ->)]].
  - destruct Hz as [Hz|Hz]; [congruence|]. exists (IZR z). repeat split; auto.
    + now apply IZR_lt.
    + now apply cpowz_0.
  - apply RtoC_inj in E1. lra.
  - eauto.
Qed.

Lemma cpow_base0_intro r : 0 < r -> cpow (RtoC 0) (RtoC r) (RtoC 0).
Proof. intros H. eapply cpow_base0; eauto. Qed.

(* the two ways in which a power with non-zero base is defined *)
Lemma cpow_nz_inv b p v : b <> RtoC 0 -> cpow b p v ->
  (exists z, p = RtoC (IZR z) /\ v = cpowz b z) \/
  (exists x r, b = RtoC x /\ 0 < x /\ p = RtoC r /\ v = RtoC (Rpower x r)).
Proof.
  intros Hb H. apply cpow_inv in H. destruct H as [(z & E & Hz & ->)|[H|(s & E1 & _)]]; eauto.
  now destruct Hb.
Qed.

Lemma cpow_plus b p q u v : cpow b p u -> cpow b q v -> cpow b (Cplus p q) (Cmult u v).
Proof.
  intros Hp Hq. destruct (Ceq_dec b (RtoC 0)) as [->|Hb].
  - apply cpow_base0_inv in Hp, Hq. destruct Hp as (r & -> & Hr & ->), Hq as (s & -> & Hs & ->).
    rewrite <- RtoC_plus, Cmult_0_l. apply cpow_base0_intro. lra.
  - assert (Hmix : forall x r z, b = RtoC x -> 0 < x ->
      cpow b (Cplus (RtoC r) (RtoC (IZR z))) (Cmult (RtoC (Rpower x r)) (cpowz b z))).
    { intros x r z -> Hx. rewrite cpowz_Rpower by assumption.
      rewrite <- RtoC_plus, <- RtoC_mult. apply cpow_real_iff; auto. f_equal. now rewrite Rpower_plus. }
    destruct (cpow_nz_inv _ _ _ Hb Hp) as [(z & -> & ->)|(x & r & E & Hx & -> & ->)];
    destruct (cpow_nz_inv _ _ _ Hb Hq) as [(w & -> & ->)|(y & s & E' & Hy & -> & ->)].
    + rewrite <- RtoC_plus, <- plus_IZR, <- cpowz_add by assumption. apply cpow_cpowz. auto.
    + rewrite Cplus_comm, Cmult_comm. now apply Hmix.
    + now apply Hmix.
    + subst b. apply RtoC_inj in E'. subst y.
      rewrite <- RtoC_plus, <- RtoC_mult. apply cpow_real_iff; auto. f_equal. now rewrite Rpower_plus.
Qed.

Lemma cpow_opp b p u : b <> RtoC 0 -> cpow b p u -> cpow b (Copp p) (Cinv u).
Proof.
  intros Hb Hp. destruct (cpow_nz_inv _ _ _ Hb Hp) as [(z & -> & ->)|(x & r & E & Hx & -> & ->)].
  - rewrite <- RtoC_opp, <- opp_IZR, <- cpowz_opp by assumption. apply cpow_cpowz. auto.
  - rewrite <- RtoC_opp. rewrite <- RtoC_Cinv.
    + subst b. apply cpow_real_iff; auto. f_equal. now rewrite Rpower_Ropp.
    + unfold Rpower. pose proof (exp_pos (r * ln x)). lra.
Qed.

(* u <> 0 implies that b^(-p) is defined *)
Lemma cpow_value_neq_0_base b p u : cpow b p u -> u <> RtoC 0 -> b <> RtoC 0.
Proof.
  intros H Hu ->. apply cpow_base0_inv in H. destruct H as (r & _ & _ & ->). now apply Hu.
Qed.

Lemma cpow_minus b p q u v : cpow b p u -> cpow b q v -> b <> RtoC 0 ->
  cpow b (Cminus p q) (Cdiv u v).
Proof. intros Hp Hq Hb. unfold Cminus, Cdiv. apply cpow_plus; auto. now apply cpow_opp. Qed.

Lemma cpow_1_iff b v : cpow b (RtoC 1) v <-> v = b.
Proof.
  assert (H : cpow b (RtoC 1) b).
  { replace b with (cpow_nat b 1) at 2 by (simpl; ring). now apply cpow_pos. }
  split; [|now intros ->]. intros Hv. eapply cpow_fun; eauto.
Qed.
Lemma cpow_1 b : cpow b (RtoC 1) b.
Proof. now apply cpow_1_iff. Qed.

Lemma cpow_2_iff b v : cpow b (RtoC 2) v <-> v = Cmult b b.
Proof.
  assert (H : cpow b (RtoC 2) (Cmult b b)).
  { replace (Cmult b b) with (cpow_nat b 2) by (simpl; ring). now apply cpow_pos. }
  split; [|now intros ->]. intros Hv. eapply cpow_fun; eauto.
Qed.
Lemma cpow_2 b : cpow b (RtoC 2) (Cmult b b).
Proof. now apply cpow_2_iff. Qed.

Lemma cpow_m1_iff b v : cpow b (RtoC (-1)) v <-> b <> RtoC 0 /\ v = Cinv b.
Proof.
  assert (H : b <> RtoC 0 -> cpow b (RtoC (-1)) (Cinv b)).
  { intros Hb. replace (Cinv b) with (Cinv (cpow_nat b 1)).
    - now apply cpow_neg.
    - simpl. now rewrite Cmult_1_r. }
  split.
  - intros Hv. assert (Hb : b <> RtoC 0).
    { intros ->. apply cpow_base0_inv in Hv. destruct Hv as (r & E & Hr & _). apply RtoC_inj in E. lra. }
    split; auto. eapply cpow_fun; eauto.
  - intros [Hb ->]. auto.
Qed.

Lemma cpow_0_iff b v : cpow b (RtoC 0) v <-> b <> RtoC 0 /\ v = RtoC 1.
Proof.
  split.
  - intros Hv. assert (Hb : b <> RtoC 0).
    { intros ->. apply cpow_base0_inv in Hv. destruct Hv as (r & E & Hr & _). apply RtoC_inj in E. lra. }
    split; auto. eapply cpow_fun; eauto. now constructor.
  - intros [Hb ->]. now constructor.
Qed.

(** (b^p)^q = b^(p*q) for an integer q, or a positive base. *)
Lemma cpow_cpow_int b p u k v : cpow b p u -> cpow u (RtoC (IZR k)) v ->
  cpow b (Cmult p (RtoC (IZR k))) v.
Proof.
  intros Hp Hv. destruct (Ceq_dec b (RtoC 0)) as [->|Hb].
  - apply cpow_base0_inv in Hp. destruct Hp as (r & -> & Hr & ->).
    apply cpow_base0_inv in Hv. destruct Hv as (s & E & Hs & ->). apply RtoC_inj in E. rewrite E.
    rewrite <- RtoC_mult. apply cpow_base0_intro. now apply Rmult_lt_0_compat.
  - pose proof (cpow_neq_0 _ _ _ Hp Hb) as Hu.
    assert (Ev : v = cpowz u k).
    { eapply cpow_fun; eauto. apply cpow_cpowz. auto. }
    destruct (cpow_nz_inv _ _ _ Hb Hp) as [(z & -> & ->)|(x & r & E & Hx & -> & ->)].
    + rewrite <- RtoC_mult, <- mult_IZR. rewrite Ev, <- cpowz_mult by assumption.
      apply cpow_cpowz. auto.
    + subst b. rewrite <- RtoC_mult. apply cpow_real_iff; auto. rewrite Ev.
      assert (Hr : 0 < Rpower x r) by (unfold Rpower; apply exp_pos).
      rewrite cpowz_Rpower by assumption. f_equal. now rewrite Rpower_mult.
Qed.

Lemma cpow_cpow_pos x p u q v : 0 < x -> cpow (RtoC x) p u -> cpow u q v ->
  cpow (RtoC x) (Cmult p q) v.
Proof.
  intros Hx Hp Hq.
  destruct (cpow_exponent_real _ _ _ Hp) as [r ->]. destruct (cpow_exponent_real _ _ _ Hq) as [s ->].
  apply cpow_real_iff in Hp; auto. subst u.
  assert (Hr : 0 < Rpower x r) by (unfold Rpower; apply exp_pos).
  apply cpow_real_iff in Hq; auto. subst v. rewrite <- RtoC_mult. apply cpow_real_iff; auto.
  now rewrite Rpower_mult.
Qed.

(** 1^p = 1, 0^p = 0 *)
Lemma cpow_base1 p v : cpow (RtoC 1) p v -> v = RtoC 1.
Proof.
  intros H. destruct (cpow_exponent_real _ _ _ H) as [r ->].
  apply cpow_real_iff in H; [|lra]. rewrite H. f_equal. unfold Rpower. now rewrite ln_1, Rmult_0_r, exp_0.
Qed.

(** ** Powers of i *)
Lemma Ci_sqr : Cmult Ci Ci = RtoC (-1).
Proof. unfold Cmult, Ci, RtoC; simpl. f_equal; ring. Qed.
Lemma Ci_neq_0 : Ci <> RtoC 0.
Proof. intros E. injection E. lra. Qed.
Lemma Ci_not_real x : Ci <> RtoC x.
Proof. intros E. injection E. lra. Qed.

Lemma cpowz_i4 k : cpowz Ci (4 * k) = RtoC 1.
Proof.
  rewrite cpowz_mult by apply Ci_neq_0.
  assert (E : cpowz Ci 4 = RtoC 1).
  { simpl. rewrite Cmult_1_r, Ci_sqr. replace (Cmult Ci (Cmult Ci (RtoC (-1)))) with (Cmult (Cmult Ci Ci) (RtoC (-1))) by ring.
    rewrite Ci_sqr, <- RtoC_mult. f_equal. ring. }
  rewrite E. rewrite cpowz_R by lra. f_equal.
  destruct k; simpl; auto; rewrite ?pow1; auto. lra.
Qed.

Lemma cpow_i z v : cpow Ci (RtoC (IZR z)) v ->
  match Z.rem z 4 with
  | 0 => v = RtoC 1
  | 1 => v = Ci
  | 2 => v = RtoC (-1)
  | 3 => v = Copp Ci
  | _ => True
  end%Z.
Proof.
  intros H. assert (E : v = cpowz Ci z).
  { eapply cpow_fun; eauto. apply cpow_cpowz. left. apply Ci_neq_0. }
  pose proof (Z.quot_rem' z 4) as Hq. rewrite Hq in E.
  rewrite cpowz_add, cpowz_i4, Cmult_1_l in E by apply Ci_neq_0.
  assert (E2 : cpowz Ci 2 = RtoC (-1)) by (simpl; rewrite Cmult_1_r; apply Ci_sqr).
  destruct (Z.rem z 4) as [|p|p]; auto.
  destruct p as [p|p|]; auto.
  - destruct p; auto. rewrite E. change 3%Z with (2 + 1)%Z. rewrite cpowz_succ, E2 by apply Ci_neq_0.
    unfold Cmult, Ci, Copp, RtoC; simpl. f_equal; ring.
  - destruct p; auto. now rewrite E.
  - rewrite E. simpl. ring.
Qed.

(** ** Logarithms *)
Lemma clog_fun b a v w : clog b a v -> clog b a w -> v = w.
Proof.
  intros (x & y & E1 & E2 & _ & _ & _ & ->) (x' & y' & E1' & E2' & _ & _ & _ & ->).
  subst. apply RtoC_inj in E1', E2'. now subst.
Qed.

Lemma ln_neq_0' x : 0 < x -> x <> 1 -> ln x <> 0.
Proof. intros. now apply ln_neq_0. Qed.
