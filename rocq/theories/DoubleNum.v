(** IEEE 754 binary64: the arithmetic of double, and its integers. *)
From Coq Require Import ZArith Reals Lia Lra Bool.
From Flocq Require Import Core BinarySingleNaN.
From Verif Require Import Num Expr SpecPoly.
Open Scope Z_scope.

(** double; NaN payloads are not distinguished, nothing in /repo looks at them *)
Definition double := binary_float 53 1024.
Definition d_prec : Prec_gt_0 53 := eq_refl.
Definition d_max : Prec_lt_emax 53 1024 := eq_refl.

(** the double nearest to m * 2^e *)
Definition d_of (m e : Z) : double := binary_normalize 53 1024 d_prec d_max mode_NE m e false.

(** The operations of double in the default rounding mode, to nearest even:
    nothing in /repo changes the mode or asks for relaxed arithmetic.  pow and log2 are the C library's: they are
    arguments, with their ghost exactness flags.
    [n_rem4]: fmod is exact and keeps the sign of its first argument, so
    truncating fmod(x, 4) is the remainder of the truncated x
    (src/SimplifyVisitor.cpp:1181).
    [n_round]: std::round, halves away from zero (src/Expression.cpp:103). *)
Definition double_ops (pw : double -> double -> double) (lg : double -> double)
    (pwx : double -> double -> bool) (lgx : double -> bool) : NumOps double := {|
  n_add := Bplus (prec_gt_0_ := d_prec) (prec_lt_emax_ := d_max) mode_NE;
  n_sub := Bminus (prec_gt_0_ := d_prec) (prec_lt_emax_ := d_max) mode_NE;
  n_mul := Bmult (prec_gt_0_ := d_prec) (prec_lt_emax_ := d_max) mode_NE;
  n_div := Bdiv (prec_gt_0_ := d_prec) (prec_lt_emax_ := d_max) mode_NE;
  n_pow := pw;
  n_log2 := lg;
  n_abs := Babs;
  n_opp := Bopp;
  n_eqb := Beqb;
  n_ltb := Bltb;
  n_leb := Bleb;
  n_of_Z z := d_of z 0;
  n_half := d_of 1 (-1);
  n_eps := d_of 1 (-23);
  n_rem4 x := if is_finite x then Some (Z.rem (Btrunc x) 4) else None;
  n_round x := match x with
    | B754_zero _ => Some 0
    | B754_finite s m e _ =>
        Some (cond_Zopp s (if 0 <=? e then Z.pos m * 2 ^ e else (2 * Z.pos m + 2 ^ (- e)) / (2 * 2 ^ (- e))))
    | _ => None
    end;
  n_pow_exact := pwx;
  n_log2_exact := lgx
|}.

Section Ints.
  Variables (pw : double -> double -> double) (lg : double -> double).
  Variables (pwx : double -> double -> bool) (lgx : double -> bool).
  Let N := double_ops pw lg pwx lgx.

  (** [d_int x z]: the double x is the integer z *)
  Definition d_int (x : double) (z : Z) : Prop := is_finite x = true /\ B2R x = IZR z.
  (** integers up to 2^53 *)
  Definition d_ok (z : Z) : Prop := Z.abs z <= 2 ^ 53.

  Notation fx := (SpecFloat.fexp 53 1024).
  Lemma d_format z : d_ok z -> generic_format radix2 fx (IZR z).
  Proof.
    unfold d_ok. intros H.
    assert (K : forall m e, Z.abs m < 2 ^ 53 -> -1074 <= e -> generic_format radix2 fx (F2R (Float radix2 m e))).
    { intros m e Hm He. apply (generic_format_FLT radix2 (-1074) 53). exists (Float radix2 m e); [reflexivity|exact Hm|exact He]. }
    destruct (Z.eq_dec (Z.abs z) (2 ^ 53)) as [E|E].
    - assert (Z' : z = Z.sgn z * 2 ^ 53) by lia. rewrite Z'.
      replace (IZR (Z.sgn z * 2 ^ 53)) with (F2R (Float radix2 (Z.sgn z) 53)).
      + apply K; [|lia]. pose proof (Z.sgn_spec z). lia.
      + unfold F2R. cbn [Fnum Fexp]. rewrite mult_IZR. f_equal.
    - replace (IZR z) with (F2R (Float radix2 z 0)); [apply K; lia|]. unfold F2R. cbn [Fnum Fexp]. simpl. ring.
  Qed.
  Lemma d_round z : d_ok z -> round radix2 fx (round_mode mode_NE) (IZR z) = IZR z.
  Proof. intros H. apply round_generic; [apply valid_rnd_round_mode|now apply d_format]. Qed.
  Lemma d_small z : d_ok z -> Rlt_bool (Rabs (IZR z)) (bpow radix2 1024) = true.
  Proof.
    intros H. apply Rlt_bool_true. rewrite <- abs_IZR. apply Rle_lt_trans with (bpow radix2 53).
    - change (bpow radix2 53) with (IZR (2 ^ 53)). apply IZR_le. exact H.
    - now apply bpow_lt.
  Qed.

  Lemma d_of_int z : d_ok z -> d_int (d_of z 0) z.
  Proof.
    intros H. pose proof (binary_normalize_correct 53 1024 d_prec d_max mode_NE z 0 false) as K. cbv zeta in K.
    replace (F2R (Float radix2 z 0)) with (IZR z) in K by (unfold F2R; cbn [Fnum Fexp]; simpl; ring).
    rewrite (d_round z H), (d_small z H) in K. split; apply K.
  Qed.
  Lemma d_eps : is_finite (d_of 1 (-23)) = true /\ B2R (d_of 1 (-23)) = bpow radix2 (-23).
  Proof. split; [vm_compute; reflexivity|]. 
    replace (d_of 1 (-23)) with (SF2B (prec := 53) (emax := 1024) (SpecFloat.S754_finite false (2 ^ 52) (-75)) eq_refl).
    - simpl. unfold F2R. cbn [Fnum Fexp]. change (IZR (Z.pos (2 ^ 52))) with (bpow radix2 52). now rewrite <- bpow_plus.
    - apply B2SF_inj. vm_compute. reflexivity.
  Qed.

  Theorem double_ints : IntLits N d_int d_ok.
  Proof.
    constructor; unfold N; cbn [n_add n_sub n_mul n_of_Z n_eqb n_leb n_abs n_eps double_ops].
    - unfold d_ok. lia.
    - unfold d_ok. lia.
    - exact d_of_int.
    - intros a b x y [Fa Ra] [Fb Rb] H.
      pose proof (Bplus_correct 53 1024 d_prec d_max mode_NE a b Fa Fb) as K.
      rewrite Ra, Rb, <- plus_IZR, (d_round _ H), (d_small _ H) in K. split; apply K.
    - intros a b x y [Fa Ra] [Fb Rb] H.
      pose proof (Bminus_correct 53 1024 d_prec d_max mode_NE a b Fa Fb) as K.
      rewrite Ra, Rb, <- minus_IZR, (d_round _ H), (d_small _ H) in K. split; apply K.
    - intros a b x y [Fa Ra] [Fb Rb] H.
      pose proof (Bmult_correct 53 1024 d_prec d_max mode_NE a b) as K.
      rewrite Ra, Rb, <- mult_IZR, (d_round _ H), (d_small _ H), Fa, Fb in K. split; apply K.
    - intros a b x y [Fa Ra] [Fb Rb]. rewrite Beqb_correct, Ra, Rb by assumption.
      destruct (Z.eqb_spec x y) as [->|E]; [now apply Req_bool_true|]. apply Req_bool_false. intros K. now apply eq_IZR in K.
    - intros a x [Fa Ra]. rewrite Bleb_correct, (proj2 d_eps), B2R_Babs, Ra.
      + rewrite <- abs_IZR. destruct (Z.eqb_spec x 0) as [->|E].
        * apply Rle_bool_true. apply bpow_ge_0.
        * apply Rle_bool_false. apply Rlt_le_trans with (bpow radix2 0); [now apply bpow_lt|]. apply IZR_le. lia.
      + now destruct a.
      + apply d_eps.
  Qed.
End Ints.
