(** Two exact arithmetics: the rationals, which compute, and the reals. *)
From Coq Require Import ZArith QArith Qabs Qreals Qround Qpower Bool Lia Lra Reals.
From Coquelicot Require Import Coquelicot.
From Verif Require Import Num Expr Spec PowProofs.

(** *** Rationals *)
Definition q_is_int (a : Q) : bool := Pos.eqb (Qden (Qred a)) 1.
Definition q_to_Z (a : Q) : Z := Qnum (Qred a).
Definition q_is_pow2 (a : Q) : bool :=
  q_is_int a && (0 <? q_to_Z a)%Z && (2 ^ Z.log2 (q_to_Z a) =? q_to_Z a)%Z.

#[export] Instance Q_ops : NumOps Q := {
  n_add a b := Qred (a + b)%Q;
  n_sub a b := Qred (a - b)%Q;
  n_mul a b := Qred (a * b)%Q;
  n_div a b := Qred (a / b)%Q;
  n_pow a b := if q_is_int b then Qred (Qpower a (q_to_Z b))
               else if Qeq_bool a 1 then 1%Q else 0%Q;
  n_log2 a := if q_is_pow2 a then inject_Z (Z.log2 (q_to_Z a)) else 0%Q;
  n_abs a := Qabs a;
  n_opp a := Qopp a;
  n_eqb a b := Qeq_bool a b;
  n_ltb a b := negb (Qle_bool b a);
  n_leb a b := Qle_bool a b;
  n_of_Z z := inject_Z z;
  n_half := (1 # 2)%Q;
  n_eps := (1 # 8388608)%Q;
  n_rem4 a := Some (Z.rem (Z.quot (Qnum (Qred a)) (Zpos (Qden (Qred a)))) 4);
  n_round a := Some (Z.sgn (Qnum (Qred a)) *
                     ((2 * Z.abs (Qnum (Qred a)) + Zpos (Qden (Qred a))) / (2 * Zpos (Qden (Qred a)))))%Z;
  n_pow_exact a b := q_is_int b || Qeq_bool a 1 || Qeq_bool a 0;
  n_log2_exact a := q_is_pow2 a
}.

Open Scope R_scope.

Lemma Q2R_red a : Q2R (Qred a) = Q2R a.
Proof. apply Qeq_eqR, Qred_correct. Qed.

Lemma Q2R_inject z : Q2R (inject_Z z) = IZR z.
Proof. unfold Q2R, inject_Z. simpl. field. Qed.

Lemma q_is_int_spec a : q_is_int a = true -> Q2R a = IZR (q_to_Z a).
Proof.
  unfold q_is_int, q_to_Z. intros H. apply Pos.eqb_eq in H.
  rewrite <- (Q2R_red a). unfold Q2R. rewrite H. field.
Qed.

Lemma q_int_red a z : Q2R a = IZR z -> Qred a = inject_Z z.
Proof.
  intros H. rewrite <- Q2R_inject in H. apply eqR_Qeq in H.
  rewrite (Qred_complete _ _ H). unfold inject_Z. unfold Qred. 
  change (Qred (inject_Z z) = inject_Z z).
  generalize (Z.ggcd_gcd z 1) (Z.ggcd_correct_divisors z 1). 
  unfold Qred, inject_Z. destruct (Z.ggcd z 1) as [g [p q]]. simpl. intros Hg [H1 H2].
  rewrite Z.gcd_1_r in Hg. subst g. rewrite Z.mul_1_l in H1, H2. now subst.
Qed.

Lemma q_is_int_true a z : Q2R a = IZR z -> q_is_int a = true /\ q_to_Z a = z.
Proof. intros H. apply q_int_red in H. unfold q_is_int, q_to_Z. rewrite H. simpl. auto. Qed.

Lemma Q2R_power a z : (Q2R a <> 0 \/ (0 <= z)%Z) -> Q2R (Qpower a z) = powerRZ (Q2R a) z.
Proof.
  assert (Hp : forall p, Q2R (Qpower_positive a p) = Q2R a ^ Pos.to_nat p).
  { intros p. induction p as [|p IH] using Pos.peano_ind.
    - simpl. ring.
    - rewrite Pos2Nat.inj_succ. simpl. rewrite <- IH, <- Q2R_mult. apply Qeq_eqR.
      rewrite <- Pos.add_1_l, Qpower_plus_positive. simpl. reflexivity. }
  intros H. destruct z as [|p|p]; simpl.
  - unfold Q2R; simpl; field.
  - apply Hp.
  - destruct H as [H|H]; [|lia]. unfold Qpower. rewrite Q2R_inv, Hp; auto.
    intros E. apply (Qeq_eqR) in E. rewrite Hp in E. replace (Q2R 0) with 0 in E by (unfold Q2R; simpl; ring).
    now apply (pow_nonzero (Q2R a) (Pos.to_nat p)) in H.
Qed.

Lemma Qeq_bool_R a b : Qeq_bool a b = true <-> Q2R a = Q2R b.
Proof.
  rewrite Qeq_bool_iff. split; [apply Qeq_eqR|apply eqR_Qeq].
Qed.
Lemma Qle_bool_R a b : Qle_bool a b = true <-> Q2R a <= Q2R b.
Proof. rewrite Qle_bool_iff. split; [apply Qle_Rle|apply Rle_Qle]. Qed.

Lemma Q_exact : Exact Q_ops Q2R.
Proof.
  constructor; intros;
    cbn [n_add n_sub n_mul n_div n_pow n_log2 n_abs n_opp n_eqb n_ltb n_leb n_of_Z n_half
         n_eps n_rem4 n_round n_pow_exact n_log2_exact Q_ops] in *.
  - now rewrite Q2R_red, Q2R_plus.
  - now rewrite Q2R_red, Q2R_minus.
  - now rewrite Q2R_red, Q2R_mult.
  - rewrite Q2R_red. apply Q2R_div. intros E. apply H. apply Qeq_eqR in E. rewrite E. unfold Q2R; simpl; ring.
  - unfold Rabs. destruct (Rcase_abs (Q2R a)) as [Hc|Hc].
    + rewrite <- Q2R_opp. apply Qeq_eqR. apply Qabs_neg. apply Rle_Qle.
      replace (Q2R 0) with 0 by (unfold Q2R; simpl; ring). lra.
    + apply Qeq_eqR. apply Qabs_pos. apply Rle_Qle.
      replace (Q2R 0) with 0 by (unfold Q2R; simpl; ring). lra.
  - apply Q2R_opp.
  - apply Q2R_inject.
  - unfold Q2R; simpl; field.
  - apply Qeq_bool_R.
  - rewrite negb_true_iff. pose proof (Qle_bool_R b a) as H. destruct (Qle_bool b a).
    + split; [discriminate|]. intros. assert (Q2R b <= Q2R a) by now apply H. lra.
    + split; auto. intros _. apply Rnot_le_lt. intros L. apply H in L. discriminate.
  - apply Qle_bool_R.
  - destruct (q_is_int b) eqn:Ei.
    + apply q_is_int_spec in Ei. rewrite Ei in H0. rewrite Q2R_red.
      apply cpow_inv in H0. destruct H0 as [(z & E & Hz & ->)|[(y & s & E1 & E2 & E3 & ->)|(s & E1 & E2 & E3 & ->)]].
      * apply RtoC_inj, eq_IZR in E. rewrite E.
        destruct (Req_dec (Q2R a) 0) as [E0|Hn].
        -- destruct Hz as [Hz|Hz]; [now rewrite E0 in Hz|].
           rewrite Q2R_power by (right; lia). rewrite E0, cpowz_0 by assumption. f_equal. symmetry.
           apply powerRZ_O_or_0 || (destruct z; try lia; simpl; destruct (Pos2Nat.is_succ p) as [n ->]; simpl; ring).
        -- rewrite Q2R_power by now left. now apply cpowz_R.
      * apply RtoC_inj in E1, E3. subst y s. f_equal. rewrite Q2R_power by (left; lra).
        symmetry. now apply powerRZ_Rpower.
      * apply RtoC_inj in E1, E2. subst s. apply lt_IZR in E3. f_equal.
        rewrite Q2R_power by (right; lia). rewrite E1.
        destruct (q_to_Z b); try lia. simpl. destruct (Pos2Nat.is_succ p) as [n ->]. simpl; ring.
    + rewrite orb_false_l in H. destruct (Qeq_bool a 1) eqn:E1.
      * apply Qeq_bool_R in E1. replace (Q2R 1) with 1 in * by (unfold Q2R; simpl; field).
        rewrite E1 in H0. now apply cpow_base1 in H0.
      * rewrite orb_false_l in H. apply Qeq_bool_R in H. replace (Q2R 0) with 0 in * by (unfold Q2R; simpl; field).
        rewrite H in H0. apply cpow_base0_inv in H0. now destruct H0 as (r & _ & _ & ->).
  - rewrite H. unfold q_is_pow2 in H. apply andb_prop in H. destruct H as [H H3].
    apply andb_prop in H. destruct H as [H1 H2]. apply q_is_int_spec in H1. apply Z.eqb_eq in H3.
    apply Z.ltb_lt in H2. rewrite H1, Q2R_inject.
    rewrite <- H3 at 2. pose proof (Z.log2_nonneg (q_to_Z a)) as Hl.
    rewrite <- (Z2Nat.id (Z.log2 (q_to_Z a))) by assumption.
    rewrite <- pow_IZR, ln_pow by lra. rewrite <- INR_IZR_INZ. field.
    apply Rgt_not_eq. rewrite <- ln_1. apply ln_increasing; lra.
  - rewrite (q_int_red _ _ H). simpl. now rewrite Z.quot_1_r.
  - rewrite (q_int_red _ _ H). unfold inject_Z, Qnum, Qden. f_equal.
    replace (2 * Z.abs z + 1)%Z with (1 + Z.abs z * 2)%Z by lia.
    rewrite Z.mul_1_r. rewrite Z.div_add by lia. change (1 / 2)%Z with 0%Z. 
    destruct z; simpl; lia.
Qed.

(** *** Reals *)
Definition r_is_int (x : R) : {x = IZR (Int_part x)} + {x <> IZR (Int_part x)} :=
  Req_EM_T x (IZR (Int_part x)).
Definition r_trunc (x : R) : Z := if Rle_dec 0 x then Int_part x else (- Int_part (- x))%Z.
Definition r_round (x : R) : Z :=
  if Rle_dec 0 x then Int_part (x + / 2) else (- Int_part (- x + / 2))%Z.

Definition R_ops : NumOps R := {|
  n_add := Rplus;
  n_sub := Rminus;
  n_mul := Rmult;
  n_div := Rdiv;
  n_pow a b := if r_is_int b then powerRZ a (Int_part b)
               else if Rlt_dec 0 a then Rpower a b else 0;
  n_log2 a := ln a / ln 2;
  n_abs := Rabs;
  n_opp := Ropp;
  n_eqb a b := if Req_EM_T a b then true else false;
  n_ltb a b := if Rlt_dec a b then true else false;
  n_leb a b := if Rle_dec a b then true else false;
  n_of_Z := IZR;
  n_half := / 2;
  n_eps := / 8388608;
  n_rem4 a := Some (Z.rem (r_trunc a) 4);
  n_round a := Some (r_round a);
  n_pow_exact a b := true;
  n_log2_exact a := true
|}.

Lemma Int_part_unique x z : IZR z <= x < IZR z + 1 -> Int_part x = z.
Proof.
  intros [H1 H2]. destruct (base_Int_part x) as [H3 H4].
  assert (IZR z - 1 < IZR (Int_part x)) by lra.
  assert (IZR (Int_part x) < IZR z + 1) by lra.
  rewrite <- minus_IZR in H. apply lt_IZR in H.
  rewrite <- plus_IZR in H0. apply lt_IZR in H0. lia.
Qed.
Lemma Int_part_IZR z : Int_part (IZR z) = z.
Proof. apply Int_part_unique. lra. Qed.

Lemma R_exact : Exact R_ops (fun x => x).
Proof.
  constructor; intros; simpl; auto.
  - destruct (Req_EM_T a b); intuition congruence.
  - destruct (Rlt_dec a b); intuition congruence.
  - destruct (Rle_dec a b); intuition congruence.
  - apply cpow_inv in H0. destruct H0 as [(z & E & Hz & ->)|[(y & s & E1 & E2 & E3 & ->)|(s & E1 & E2 & E3 & ->)]].
    + apply RtoC_inj in E. subst b. destruct (r_is_int (IZR z)) as [_|Hn].
      * rewrite Int_part_IZR. destruct (Req_dec a 0) as [->|Ha]; [|now apply cpowz_R].
        destruct Hz as [Hz|Hz]; [congruence|]. rewrite cpowz_0 by assumption. f_equal.
        destruct z; try lia. simpl. destruct (Pos2Nat.is_succ p) as [n ->]. simpl; ring.
      * now rewrite Int_part_IZR in Hn.
    + apply RtoC_inj in E1, E3. subst y s. f_equal. destruct (r_is_int b) as [E|Hn].
      * rewrite E at 1. symmetry. now apply powerRZ_Rpower.
      * destruct (Rlt_dec 0 a); tauto.
    + apply RtoC_inj in E1, E2. subst a s. f_equal. destruct (r_is_int b) as [E|Hn].
      * assert (Hz : (0 < Int_part b)%Z) by (apply lt_IZR; lra).
        destruct (Int_part b); try lia. simpl. destruct (Pos2Nat.is_succ p) as [n ->]. simpl; ring.
      * destruct (Rlt_dec 0 0); lra.
  - f_equal. f_equal. subst a. unfold r_trunc. rewrite <- opp_IZR, !Int_part_IZR. destruct (Rle_dec 0 (IZR z)); lia.
  - f_equal. subst a. unfold r_round. destruct (Rle_dec 0 (IZR z)).
    + apply Int_part_unique. lra.
    + rewrite <- opp_IZR. rewrite (Int_part_unique _ (- z)); [lia|lra].
Qed.
