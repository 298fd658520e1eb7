(** Reading and printing numbers (Numerals.v). *)
From Coq Require Import String Ascii Bool Arith ZArith Reals Lra Lia List SpecFloat.
From Flocq Require Import Core Relative BinarySingleNaN.
From Verif Require Import SpecText SpecLine SpecInput SpecNumeral FromInFix DoubleNum Numerals.
Import ListNotations.
Open Scope Z_scope.
Open Scope list_scope.

(** ** Rounding to float *)
Local Instance f_prec : Prec_gt_0 24 := eq_refl.
Local Instance f_max : Prec_lt_emax 24 128 := eq_refl.
Local Instance d_prec' : Prec_gt_0 53 := eq_refl.
Notation ffx := (SpecFloat.fexp 24 128).
Notation round32 := (round radix2 ffx (round_mode mode_NE)).

Definition signed (neg : bool) (v : R) : R := if neg then (- v)%R else v.

Lemma round_float_correct neg n d : 0 < n -> 0 < d ->
  (Rabs (round32 (signed neg (IZR n / IZR d))) < bpow radix2 128)%R ->
  valid_binary 24 128 (round_float neg n d) = true /\
  SF2R radix2 (round_float neg n d) = round32 (signed neg (IZR n / IZR d)) /\
  is_finite_SF (round_float neg n d) = true /\ sign_SF (round_float neg n d) = neg.
Proof.
  intros Hn Hd B. destruct n as [|n|n]; try lia. destruct d as [|d|d]; try lia. unfold round_float.
  pose proof (Bdiv_correct_aux 24 128 f_prec f_max mode_NE neg n 0 false d 0) as K. cbv zeta in K.
  assert (E1 : (F2R (Float radix2 (cond_Zopp neg (Z.pos n)) 0) / F2R (Float radix2 (cond_Zopp false (Z.pos d)) 0))%R = signed neg (IZR (Z.pos n) / IZR (Z.pos d))).
  { unfold F2R. cbn [Fnum Fexp bpow]. rewrite !Rmult_1_r. destruct neg; cbn [cond_Zopp signed]; [rewrite opp_IZR; field|reflexivity]. apply IZR_neq. discriminate. }
  rewrite E1 in K. rewrite xorb_false_r in K.
  destruct (SFdiv_core_binary 24 128 (Z.pos n) 0 (Z.pos d) 0) as [[q e] l]. destruct K as [K1 K2]. split; [exact K1|].
  rewrite Rlt_bool_true in K2 by exact B. exact K2.
Qed.

Lemma float_in_double x : generic_format radix2 ffx x -> generic_format radix2 (SpecFloat.fexp 53 1024) x.
Proof.
  intros H. apply (FLT_format_generic radix2 (-149) 24) in H. destruct H as [f E1 E2 E3].
  apply (generic_format_FLT radix2 (-1074) 53). exists f; [exact E1| |lia]. eapply Z.lt_trans; [exact E2|reflexivity].
Qed.

Lemma widen_correct z : valid_binary 24 128 z = true -> is_finite_SF z = true ->
  is_finite (widen z) = true /\ B2R (widen z) = SF2R radix2 z.
Proof.
  intros V F. destruct z as [s|s| |s m e]; try discriminate F; [split; reflexivity|]. cbn [widen SF2R].
  pose proof (generic_format_B2R 24 128 (SF2B (S754_finite s m e) V)) as G. rewrite B2R_SF2B in G.
  pose proof (abs_B2R_lt_emax 24 128 (SF2B (S754_finite s m e) V)) as L. rewrite B2R_SF2B in L. cbn [SF2R] in G, L.
  apply float_in_double in G.
  pose proof (binary_normalize_correct 53 1024 d_prec d_max mode_NE (cond_Zopp s (Z.pos m)) e false) as K. cbv zeta in K.
  rewrite (round_generic radix2 (SpecFloat.fexp 53 1024) (round_mode mode_NE) _ G) in K.
  rewrite Rlt_bool_true in K.
  - split; apply K.
  - eapply Rlt_trans; [exact L|]. now apply bpow_lt.
Qed.

Lemma in_range_normal z n d : valid_binary 24 128 z = true -> is_finite_SF z = true ->
  (bpow radix2 (-126) <= Rabs (SF2R radix2 z))%R -> in_range z n d = true.
Proof.
  intros V F B. destruct z as [s|s| |s m e]; try discriminate F.
  - cbn in B. rewrite Rabs_R0 in B. pose proof (bpow_gt_0 radix2 (-126)). lra.
  - cbn [in_range]. apply orb_true_iff. left. apply Z.leb_le. destruct (Z_lt_le_dec (Z.pos m) (2 ^ 23)) as [Hm|Hm]; [|exact Hm]. exfalso.
    cbn [valid_binary] in V. unfold bounded in V. apply andb_true_iff in V. destruct V as [V1 V2].
    unfold canonical_mantissa in V1. apply Zeq_bool_eq in V1. apply Z.leb_le in V2.
    assert (D : Z.pos (digits2_pos m) <= 23).
    { rewrite Zpos_digits2_pos. apply Zdigits_le_Zpower. rewrite Z.abs_eq by lia. exact Hm. }
    unfold fexp, emin in V1. assert (E : e = -149) by lia.
    cbn [SF2R] in B. rewrite <- F2R_Zabs in B. rewrite abs_cond_Zopp in B. cbn [Z.abs] in B.
    unfold F2R in B. cbn [Fnum Fexp] in B. rewrite E in B.
    assert (K : (IZR (Z.pos m) * bpow radix2 (-149) < bpow radix2 23 * bpow radix2 (-149))%R).
    { apply Rmult_lt_compat_r; [apply bpow_gt_0|]. change (bpow radix2 23) with (IZR (2 ^ 23)). now apply IZR_lt. }
    rewrite <- bpow_plus in K. change (23 + -149) with (-126) in K. lra.
Qed.

(* numbers from the least normal one on round to such numbers *)
Lemma round32_normal v : (bpow radix2 (-126) <= Rabs v)%R -> (bpow radix2 (-126) <= Rabs (round32 v))%R.
Proof.
  intros H. apply abs_round_ge_generic; [apply fexp_correct; reflexivity|apply valid_rnd_round_mode| |exact H].
  apply generic_format_bpow. unfold fexp, emin. lia.
Qed.

Lemma stof_number neg n d : 0 <= n -> 0 < d -> (n = 0 \/ (bpow radix2 (-126) <= IZR n / IZR d)%R) ->
  (Rabs (round32 (signed neg (IZR n / IZR d))) < bpow radix2 128)%R ->
  in_range (round_float neg n d) n d = true /\ is_finite (widen (round_float neg n d)) = true /\
  B2R (widen (round_float neg n d)) = round32 (signed neg (IZR n / IZR d)).
Proof.
  intros Hn Hd Hv B. destruct (Z.eq_dec n 0) as [->|Hz].
  - cbn. split; [reflexivity|]. split; [reflexivity|]. unfold Rdiv. rewrite Rmult_0_l. replace (signed neg 0) with 0%R by (unfold signed; destruct neg; lra).
    symmetry. apply round_0. apply valid_rnd_N.
  - destruct Hv as [Hv|Hv]; [contradiction|].
    destruct (round_float_correct neg n d ltac:(lia) Hd B) as (V & E & F & _).
    destruct (widen_correct _ V F) as [F' E']. split; [|split; [exact F'|now rewrite E']].
    apply in_range_normal; auto. rewrite E. apply round32_normal.
    assert (A : Rabs (signed neg (IZR n / IZR d)) = (IZR n / IZR d)%R).
    { assert (P : (0 <= IZR n / IZR d)%R) by (eapply Rle_trans; [apply bpow_ge_0|exact Hv]).
      unfold signed. destruct neg; [rewrite Rabs_Ropp|]; now apply Rabs_pos_eq. }
    now rewrite A.
Qed.

(** ** Reading decimal numbers *)
Definition radix10 : radix := Build_radix 10 eq_refl.
Notation pow10 := (bpow radix10).

Lemma digit_is c : digit c <-> is_digit c = true.
Proof. unfold digit, is_digit. rewrite andb_true_iff, !Nat.leb_le. reflexivity. Qed.
Lemma digits_cons c l : digits (c :: l) <-> digit c /\ digits l.
Proof. unfold digits. split; [intros H; split; [apply H; now left|intros x Hx; apply H; now right]|intros [H1 H2] x [<-|Hx]; auto]. Qed.
Lemma digits_app a b : digits (a ++ b) <-> digits a /\ digits b.
Proof.
  unfold digits. split; [intros H; split; intros c Hc; apply H, in_or_app; auto|intros [H1 H2] c Hc].
  apply in_app_or in Hc. destruct Hc; auto.
Qed.
Lemma fold_natural l : forall v, fold_left (fun v c => 10 * v + (Z.of_nat (nat_of_ascii c) - 48)) l v = v * 10 ^ Z.of_nat (length l) + natural l.
Proof.
  unfold natural. induction l as [|c l IH]; intros v; cbn [fold_left length]; [change (10 ^ Z.of_nat 0) with 1; lia|].
  rewrite IH, (IH (10 * 0 + _)). rewrite Nat2Z.inj_succ, Z.pow_succ_r by lia. ring.
Qed.
Lemma natural_app a b : natural (a ++ b) = natural a * 10 ^ Z.of_nat (length b) + natural b.
Proof. unfold natural at 1. rewrite fold_left_app. apply fold_natural. Qed.
Lemma natural_cons c l : natural (c :: l) = (Z.of_nat (nat_of_ascii c) - 48) * 10 ^ Z.of_nat (length l) + natural l.
Proof. change (c :: l) with ([c] ++ l). rewrite natural_app. reflexivity. Qed.
Lemma natural_bounds l : digits l -> 0 <= natural l < 10 ^ Z.of_nat (length l).
Proof.
  induction l as [|c l IH]; intros H; [now cbn|]. apply digits_cons in H. destruct H as [Hc H]. specialize (IH H). unfold digit in Hc.
  rewrite natural_cons. cbn [length]. rewrite Nat2Z.inj_succ, Z.pow_succ_r by lia. nia.
Qed.
Lemma digits_value_natural l : digits l -> digits_value 10 l = natural l.
Proof.
  unfold digits_value, natural. generalize 0. induction l as [|c l IH]; intros v H; [reflexivity|]. apply digits_cons in H. destruct H as [Hc H].
  cbn [fold_left]. rewrite IH by exact H. f_equal. unfold digit_value. now rewrite (proj1 (digit_is c) Hc).
Qed.
Lemma span_digits a b : digits a -> match b with [] => True | c :: _ => is_digit c = false end -> span is_digit (a ++ b) = (a, b).
Proof.
  intros H Hb. induction a as [|c a IH].
  - destruct b as [|c b]; [reflexivity|]. cbn [app span]. now rewrite Hb.
  - apply digits_cons in H. destruct H as [Hc H]. cbn [app span]. rewrite (proj1 (digit_is c) Hc), (IH H). reflexivity.
Qed.

Lemma pow10_pos k : IZR (10 ^ Z.of_nat k) = pow10 (Z.of_nat k).
Proof. change 10 with (radix_val radix10) at 1. apply IZR_Zpower. lia. Qed.
Lemma pow10_nat k : (10 ^ k)%R = pow10 (Z.of_nat k).
Proof. rewrite <- pow10_pos, pow_IZR. reflexivity. Qed.
Lemma pow10_opp k : pow10 (- k) = (/ pow10 k)%R.
Proof. apply bpow_opp. Qed.

(* what follows a number without exponent *)
Definition stops (r : list ascii) : Prop := match r with [] => True | c :: _ => is_digit c = false /\ c <> "."%char end.
Lemma scan_plain l v r : plain_decimal l v -> stops r ->
  exists ds k, scan_digits is_digit (l ++ r) = Some (ds, k, r) /\ 0 <= digits_value 10 ds /\ v = (IZR (digits_value 10 ds) * pow10 (- k))%R.
Proof.
  intros H Hr. destruct H as [ip Hi Hn|ip fp Hi Hf Hn].
  - exists ip, 0. unfold scan_digits. rewrite span_digits by (first [assumption|destruct r; [exact I|apply Hr]]).
    split; [|split].
    + destruct ip as [|i ip]; [congruence|]. destruct r as [|c r]; [cbn [length]; now rewrite app_nil_r|].
      destruct Hr as [_ Hr]. destruct (Ascii.eqb_spec c ".") as [->|_]; [congruence|]. cbn [length]. now rewrite app_nil_r.
    + rewrite digits_value_natural by exact Hi. now apply natural_bounds.
    + rewrite digits_value_natural by exact Hi. cbn. ring.
  - exists (ip ++ fp), (Z.of_nat (length fp)). unfold scan_digits. rewrite <- app_assoc. cbn [app].
    rewrite span_digits by (auto; reflexivity). change (Ascii.eqb "." ".") with true. cbn iota.
    rewrite span_digits by (first [assumption|destruct r; [exact I|apply Hr]]). split; [|split].
    + destruct (ip ++ fp); [congruence|reflexivity].
    + rewrite digits_value_natural by (now apply digits_app). apply natural_bounds. now apply digits_app.
    + rewrite digits_value_natural by (now apply digits_app). rewrite natural_app, plus_IZR, mult_IZR, pow10_pos, pow10_opp, pow10_nat.
      field. apply Rgt_not_eq, bpow_gt_0.
Qed.

Lemma has_prefix_in w l : has_prefix w l = true -> forall c, In c w -> exists d, In d l /\ lower d = c.
Proof.
  unfold has_prefix. destruct (list_eq_dec _ _ w) as [E|]; [|discriminate]. intros _ c Hc. rewrite <- E in Hc. apply in_map_iff in Hc.
  destruct Hc as (d & E' & Hd). exists d. split; [|exact E']. rewrite <- (firstn_skipn (length w) l). apply in_or_app. now left.
Qed.
Definition tame (c : ascii) : Prop := digit c \/ In c ["."; "e"; "+"; "-"]%char.
Lemma tame_lower c : tame c -> lower c <> "n"%char /\ lower c <> "x"%char.
Proof.
  intros [H|H].
  - assert (E : lower c = c).
    { unfold lower, digit in *. destruct (Nat.leb_spec 65 (nat_of_ascii c)); [lia|reflexivity]. }
    rewrite E. split; intros ->; cbv in H; lia.
  - cbn in H. repeat (destruct H as [<-|H]; [split; discriminate|]). destruct H.
Qed.
Lemma plain_tame l v : plain_decimal l v -> forall c, In c l -> tame c.
Proof.
  intros [ip Hi Hn|ip fp Hi Hf Hn] c Hc; [left; auto|]. apply in_app_or in Hc. destruct Hc as [Hc|[<-|Hc]]; [left; auto|right; now left|left; auto].
Qed.
Lemma unsigned_tame l v : unsigned l v -> forall c, In c l -> tame c.
Proof.
  intros [l' v' H|l' v' x k H Hx] c Hc; [now apply (plain_tame l' v')|]. apply in_app_or in Hc. destruct Hc as [Hc|Hc]; [now apply (plain_tame l' v')|].
  destruct Hx as [ds Hd _|ds Hd _]; destruct Hc as [<-|[<-|Hc]]; try (right; cbn; tauto); left; auto.
Qed.
Lemma unsigned_no_prefix l v w : unsigned l v -> In "n"%char w \/ In "x"%char w -> has_prefix w l = false.
Proof.
  intros H Hw. destruct (has_prefix w l) eqn:E; [|reflexivity]. exfalso.
  destruct Hw as [Hw|Hw]; apply (has_prefix_in w l E) in Hw; destruct Hw as (d & Hd & Hl); apply (unsigned_tame l v H) in Hd; apply tame_lower in Hd; tauto.
Qed.

Lemma scan_unsigned l v : unsigned l v ->
  exists m k, scan_number l = Some (SNum m 10 k) /\ 0 <= m /\ v = (IZR m * pow10 k)%R.
Proof.
  intros H. unfold scan_number. rewrite !(unsigned_no_prefix l v) by (auto; cbn; tauto).
  destruct H as [l v H|l v x k H Hx].
  - destruct (scan_plain l v [] H I) as (ds & k & E & Hm & Hv). rewrite app_nil_r in E. rewrite E.
    exists (digits_value 10 ds), (- k). split; [reflexivity|]. now split.
  - assert (S : stops x) by (destruct Hx; (split; [reflexivity|discriminate])).
    destruct (scan_plain l v x H S) as (ds & j & E & Hm & Hv). rewrite E.
    assert (Ex : scan_exponent "e" x = k).
    { destruct Hx as [es He _|es He _]; cbn [scan_exponent]; change (Ascii.eqb (lower "e") "e") with true; cbn iota; cbn [scan_sign].
      - change (Ascii.eqb "+" "-") with false. change (Ascii.eqb "+" "+") with true. cbn iota. rewrite <- (app_nil_r es), span_digits by (auto; exact I).
        cbn [fst]. rewrite app_nil_r. now apply digits_value_natural.
      - change (Ascii.eqb "-" "-") with true. cbn iota. rewrite <- (app_nil_r es), span_digits by (auto; exact I).
        cbn [fst]. rewrite app_nil_r. f_equal. now apply digits_value_natural. }
    rewrite Ex. exists (digits_value 10 ds), (k - j). split; [reflexivity|]. split; [exact Hm|]. rewrite Hv. unfold Z.sub. rewrite bpow_plus.
    rewrite <- (bpow_powerRZ radix10). ring.
Qed.

Lemma quotient_value m b e : 0 <= m -> 0 < b -> let (n, d) := quotient m b e in
  0 <= n /\ 0 < d /\ (n = 0 <-> m = 0).
Proof.
  intros Hm Hb. unfold quotient. destruct (Z.leb_spec 0 e) as [H|H].
  - pose proof (Z.pow_pos_nonneg b e Hb H). split; [nia|]. split; [lia|]. nia.
  - pose proof (Z.pow_pos_nonneg b (- e) Hb ltac:(lia)). split; [lia|]. split; [lia|reflexivity].
Qed.
Lemma quotient_ratio r m e : let (n, d) := quotient m (radix_val r) e in (IZR n / IZR d)%R = (IZR m * bpow r e)%R.
Proof.
  unfold quotient. destruct (Z.leb_spec 0 e) as [H|H].
  - rewrite mult_IZR, IZR_Zpower by exact H. field.
  - rewrite IZR_Zpower by lia. rewrite bpow_opp. field. apply Rgt_not_eq, bpow_gt_0.
Qed.

Lemma decimal_parts l v : decimal l v -> exists neg l' v', unsigned l' v' /\ v = signed neg v' /\
  scan_sign (skip_space l) = (neg, l').
Proof.
  assert (First : forall l v, unsigned l v -> exists c l', l = c :: l' /\ (digit c \/ c = "."%char)).
  { assert (P : forall l v, plain_decimal l v -> exists c l', l = c :: l' /\ (digit c \/ c = "."%char)).
    { intros l0 v0 [ip Hi Hn|ip fp Hi Hf Hn].
      - destruct ip as [|c ip]; [congruence|]. exists c, ip. split; [reflexivity|]. left. apply Hi. now left.
      - destruct ip as [|c ip]; [exists "."%char, fp; auto|]. exists c, (ip ++ "."%char :: fp). split; [reflexivity|]. left. apply Hi. now left. }
    intros l0 v0 [l' v' H|l' v' x k H Hx]; [eauto|]. destruct (P _ _ H) as (c & m & -> & Hc). exists c, (m ++ x). split; [reflexivity|exact Hc]. }
  intros [l' v' H|l' v' H].
  - exists false, l', v'. split; [exact H|]. split; [reflexivity|]. destruct (First l' v' H) as (c & m & -> & Hc).
    assert (S : is_space c = false).
    { unfold is_space. destruct Hc as [Hc| ->]; [|reflexivity]. unfold digit in Hc. apply orb_false_iff. split; [apply Nat.eqb_neq; lia|].
      apply andb_false_iff. right. apply Nat.leb_gt. lia. }
    cbn [skip_space]. rewrite S. cbn [scan_sign].
    destruct (Ascii.eqb_spec c "-") as [->|_]; [destruct Hc as [Hc|Hc]; [cbv in Hc; lia|discriminate Hc]|].
    destruct (Ascii.eqb_spec c "+") as [->|_]; [destruct Hc as [Hc|Hc]; [cbv in Hc; lia|discriminate Hc]|]. reflexivity.
  - exists true, l', v'. split; [exact H|]. split; [reflexivity|]. reflexivity.
Qed.

Theorem stof_decimal l v : decimal l v -> (v = 0 \/ bpow radix2 (-126) <= Rabs v)%R -> (Rabs (round32 v) < bpow radix2 128)%R ->
  exists x, stof (string_of_list_ascii l) = Some x /\ is_finite x = true /\ B2R x = round32 v.
Proof.
  intros H Hv B. destruct (decimal_parts l v H) as (neg & l' & v' & Hu & E & Es). unfold stof. rewrite list_ascii_of_string_of_list_ascii, Es.
  destruct (scan_unsigned l' v' Hu) as (m & k & Ek & Hm & Ev). rewrite Ek.
  pose proof (quotient_value m 10 k Hm eq_refl) as Q1. pose proof (quotient_ratio radix10 m k) as Q2. change (radix_val radix10) with 10 in Q2.
  destruct (quotient m 10 k) as [n d]. destruct Q1 as (Hn & Hd & Hz). rewrite <- Ev in Q2. rewrite E in B. rewrite <- Q2 in B.
  assert (C : n = 0 \/ (bpow radix2 (-126) <= IZR n / IZR d)%R).
  { rewrite Q2. assert (P : (0 <= v')%R) by (rewrite Ev; apply Rmult_le_pos; [now apply IZR_le|apply bpow_ge_0]).
    destruct Hv as [Hv|Hv].
    - left. apply Hz. assert (v' = 0)%R by (rewrite E in Hv; unfold signed in Hv; destruct neg; lra). rewrite Ev in H0. apply Rmult_integral in H0.
      destruct H0 as [H0|H0]; [now apply eq_IZR|]. exfalso. pose proof (bpow_gt_0 radix10 k). lra.
    - right. rewrite E in Hv. unfold signed in Hv. destruct neg; [rewrite Rabs_Ropp in Hv|]; rewrite Rabs_pos_eq in Hv; auto. }
  destruct (stof_number neg n d Hn Hd C B) as (K1 & K2 & K3). rewrite K1. eexists. split; [reflexivity|]. split; [exact K2|]. rewrite K3, Q2, <- E. reflexivity.
Qed.

(** ** Printing *)
Lemma count_digits_spec fuel : forall n, 0 < n -> Z.log2 n <= Z.of_nat fuel ->
  1 <= count_digits fuel n /\ 10 ^ (count_digits fuel n - 1) <= n < 10 ^ count_digits fuel n.
Proof.
  induction fuel as [|fuel IH]; intros n Hn L.
  - cbn [count_digits]. assert (n = 1).
    { destruct (Z.eq_dec n 1) as [|H]; [assumption|]. assert (1 <= Z.log2 n) by (apply Z.log2_le_pow2; lia). lia. }
    subst n. change (10 ^ (1 - 1)) with 1. change (10 ^ 1) with 10. lia.
  - cbn [count_digits]. destruct (Z.ltb_spec n 10) as [H|H].
    + change (10 ^ (1 - 1)) with 1. change (10 ^ 1) with 10. lia.
    + assert (H1 : 0 < n / 10) by (apply Z.div_str_pos; lia).
      assert (H2 : Z.log2 (n / 10) <= Z.of_nat fuel).
      { assert (K : Z.log2 (n / 10) <= Z.log2 (n / 2)).
        { apply Z.log2_le_mono. apply Z.div_le_compat_l; lia. }
        assert (K2 : Z.log2 (n / 2) = Z.log2 n - 1).
        { replace (n / 2) with (Z.shiftr n 1) by (now rewrite Z.shiftr_div_pow2). rewrite Z.log2_shiftr by lia. assert (1 <= Z.log2 n) by (apply Z.log2_le_pow2; lia). lia. }
        lia. }
      destruct (IH (n / 10) H1 H2) as (K0 & K1 & K2). set (c := count_digits fuel (n / 10)) in *. split; [lia|].
      replace (1 + c - 1) with (Z.succ (c - 1)) by lia. rewrite Z.pow_succ_r by lia. rewrite (Z.add_1_l c), Z.pow_succ_r by lia.
      pose proof (Z.div_mod n 10 ltac:(lia)). pose proof (Z.mod_pos_bound n 10 ltac:(lia)). nia.
Qed.
Lemma decimal_length_spec n : 0 < n -> 1 <= decimal_length n /\ 10 ^ (decimal_length n - 1) <= n < 10 ^ decimal_length n.
Proof. intros H. apply count_digits_spec; [exact H|]. rewrite Z2Nat.id; [lia|apply Z.log2_nonneg]. Qed.

Lemma IZR_pow10 k : 0 <= k -> IZR (10 ^ k) = pow10 k.
Proof. intros H. change 10 with (radix_val radix10) at 1. now apply IZR_Zpower. Qed.
Lemma div_lt_le a b c : (0 < c)%R -> (a <= b / c)%R <-> (a * c <= b)%R.
Proof.
  intros H. split; intros K.
  - apply (Rmult_le_compat_r c) in K; [|lra]. unfold Rdiv in K. rewrite Rmult_assoc, Rinv_l, Rmult_1_r in K by lra. exact K.
  - apply (Rmult_le_reg_r c); [exact H|]. unfold Rdiv. rewrite Rmult_assoc, Rinv_l, Rmult_1_r by lra. exact K.
Qed.
Lemma div_gt_lt a b c : (0 < c)%R -> (b / c < a)%R <-> (b < a * c)%R.
Proof.
  intros H. split; intros K.
  - apply (Rmult_lt_compat_r c) in K; [|lra]. unfold Rdiv in K. rewrite Rmult_assoc, Rinv_l, Rmult_1_r in K by lra. exact K.
  - apply (Rmult_lt_reg_r c); [exact H|]. unfold Rdiv. rewrite Rmult_assoc, Rinv_l, Rmult_1_r by lra. exact K.
Qed.

Lemma leading_spec n d : 0 < n -> 0 < d -> (pow10 (leading n d) <= IZR n / IZR d < pow10 (leading n d + 1))%R.
Proof.
  intros Hn Hd. assert (Rn : (0 < IZR n)%R) by now apply IZR_lt. assert (Rd : (0 < IZR d)%R) by now apply IZR_lt.
  unfold leading. destruct (Z.leb_spec d n) as [H|H].
  - assert (Q : 0 < n / d) by (apply Z.div_str_pos; lia). destruct (decimal_length_spec _ Q) as (L0 & L1 & L2). set (L := decimal_length (n / d)) in *.
    replace (L - 1 + 1) with L by lia. rewrite <- !IZR_pow10 by lia.
    pose proof (Z.div_mod n d ltac:(lia)). pose proof (Z.mod_pos_bound n d ltac:(lia)).
    split; [apply div_lt_le; [exact Rd|]; rewrite <- mult_IZR; apply IZR_le; nia|apply div_gt_lt; [exact Rd|]; rewrite <- mult_IZR; apply IZR_lt; nia].
  - assert (Q : 0 < (d - 1) / n) by (apply Z.div_str_pos; lia). destruct (decimal_length_spec _ Q) as (L0 & L1 & L2). set (L := decimal_length ((d - 1) / n)) in *.
    pose proof (Z.div_mod (d - 1) n ltac:(lia)). pose proof (Z.mod_pos_bound (d - 1) n ltac:(lia)).
    replace (- L + 1) with (- (L - 1)) by lia. rewrite !bpow_opp, <- !IZR_pow10 by lia.
    assert (P : forall k, 0 <= k -> (0 < IZR (10 ^ k))%R) by (intros k Hk; apply IZR_lt; now apply Z.pow_pos_nonneg).
    assert (P1 := P L ltac:(lia)). assert (P2 := P (L - 1) ltac:(lia)).
    split.
    + apply div_lt_le; [exact Rd|]. apply (Rmult_le_reg_l (IZR (10 ^ L))); [exact P1|]. rewrite <- Rmult_assoc, Rinv_r, Rmult_1_l by lra.
      rewrite <- mult_IZR. apply IZR_le. nia.
    + apply div_gt_lt; [exact Rd|]. apply (Rmult_lt_reg_l (IZR (10 ^ (L - 1)))); [exact P2|]. rewrite <- Rmult_assoc, Rinv_r, Rmult_1_l by lra.
      rewrite <- mult_IZR. apply IZR_lt. nia.
Qed.

Lemma nearest_spec n d : 0 < d -> (Rabs (IZR (nearest n d) - IZR n / IZR d) <= / 2)%R.
Proof.
  intros Hd. assert (Rd : (0 < IZR d)%R) by now apply IZR_lt.
  pose proof (Z.div_mod n d ltac:(lia)) as E. pose proof (Z.mod_pos_bound n d Hd) as B. set (q := n / d) in *.
  assert (K : nearest n d = q /\ 2 * (n - q * d) <= d \/ nearest n d = q + 1 /\ d <= 2 * (n - q * d)).
  { unfold nearest. fold q. destruct (Z.compare_spec (2 * (n - q * d)) d) as [C|C|C]; [destruct (Z.even q); [left|right]|left|right]; (split; [reflexivity|lia]). }
  assert (En : (IZR n / IZR d = IZR q + IZR (n - q * d) / IZR d)%R) by (rewrite minus_IZR, mult_IZR; field; lra).
  assert (Lo : (0 <= IZR (n - q * d) / IZR d)%R) by (apply Rmult_le_pos; [apply IZR_le; nia|left; now apply Rinv_0_lt_compat]).
  assert (Hi : (IZR (n - q * d) / IZR d < 1)%R) by (apply div_gt_lt; [exact Rd|]; rewrite Rmult_1_l; apply IZR_lt; nia).
  rewrite En. destruct K as [[-> K]|[-> K]].
  - apply Rabs_le. assert (IZR (n - q * d) / IZR d <= / 2)%R; [|lra]. apply (Rmult_le_reg_r (2 * IZR d)); [lra|].
    replace (IZR (n - q * d) / IZR d * (2 * IZR d))%R with (2 * IZR (n - q * d))%R by (field; lra).
    replace (/ 2 * (2 * IZR d))%R with (IZR d) by field. rewrite <- mult_IZR. now apply IZR_le.
  - rewrite plus_IZR. apply Rabs_le. assert (/ 2 <= IZR (n - q * d) / IZR d)%R; [|lra]. apply (Rmult_le_reg_r (2 * IZR d)); [lra|].
    replace (IZR (n - q * d) / IZR d * (2 * IZR d))%R with (2 * IZR (n - q * d))%R by (field; lra).
    replace (/ 2 * (2 * IZR d))%R with (IZR d) by field. rewrite <- mult_IZR. now apply IZR_le.
Qed.
Lemma nearest_exact z d : 0 < d -> nearest (z * d) d = z.
Proof.
  intros H. unfold nearest. rewrite Z.div_mul by lia. replace (2 * (z * d - z * d)) with 0 by lia.
  destruct (Z.compare_spec 0 d); [lia|reflexivity|lia].
Qed.

(* the significant digits *)
Lemma significant_spec p n d : (1 <= p)%nat -> 0 < n -> 0 < d ->
  let X0 := leading n d in let (D, X) := significant p n d in
  10 ^ (Z.of_nat p - 1) <= D < 10 ^ Z.of_nat p /\ (X = X0 \/ X = X0 + 1) /\
  (Rabs (IZR D * pow10 (X - Z.of_nat p + 1) - IZR n / IZR d) <= / 2 * pow10 (X0 - Z.of_nat p + 1))%R.
Proof.
  intros Hp Hn Hd. cbv zeta. unfold significant. pose proof (leading_spec n d Hn Hd) as [L1 L2]. set (X := leading n d) in *.
  assert (Rn : (0 < IZR n)%R) by now apply IZR_lt. assert (Rd : (0 < IZR d)%R) by now apply IZR_lt.
  set (k := Z.of_nat p - 1 - X).
  set (D := if 0 <=? k then nearest (n * 10 ^ k) d else nearest n (d * 10 ^ (- k))).
  assert (HD : (Rabs (IZR D - IZR n / IZR d * pow10 k) <= / 2)%R).
  { unfold D. destruct (Z.leb_spec 0 k) as [Hk|Hk].
    - replace (IZR n / IZR d * pow10 k)%R with (IZR (n * 10 ^ k) / IZR d)%R by (rewrite mult_IZR, IZR_pow10 by exact Hk; field; lra). now apply nearest_spec.
    - assert (P : 0 < 10 ^ (- k)) by (apply Z.pow_pos_nonneg; lia).
      replace (IZR n / IZR d * pow10 k)%R with (IZR n / IZR (d * 10 ^ (- k)))%R.
      + apply nearest_spec. lia.
      + rewrite mult_IZR, IZR_pow10 by lia. rewrite bpow_opp. field. split; first [lra|apply Rgt_not_eq, bpow_gt_0]. }
  assert (Vlo : (IZR (10 ^ (Z.of_nat p - 1)) <= IZR n / IZR d * pow10 k)%R).
  { rewrite IZR_pow10 by lia. replace (Z.of_nat p - 1) with (X + k) by lia. rewrite bpow_plus. apply Rmult_le_compat_r; [apply bpow_ge_0|exact L1]. }
  assert (Vhi : (IZR n / IZR d * pow10 k < IZR (10 ^ Z.of_nat p))%R).
  { rewrite IZR_pow10 by lia. replace (Z.of_nat p) with (X + 1 + k) by lia. rewrite bpow_plus. apply Rmult_lt_compat_r; [apply bpow_gt_0|exact L2]. }
  apply Rabs_le_inv in HD.
  assert (Dlo : 10 ^ (Z.of_nat p - 1) <= D).
  { apply Z.lt_succ_r, lt_IZR. rewrite succ_IZR. lra. }
  assert (Dhi : D <= 10 ^ Z.of_nat p).
  { apply Z.lt_succ_r, lt_IZR. rewrite succ_IZR. lra. }
  assert (Main : (Rabs (IZR D * pow10 (X - Z.of_nat p + 1) - IZR n / IZR d) <= / 2 * pow10 (X - Z.of_nat p + 1))%R).
  { replace (X - Z.of_nat p + 1) with (- k) by lia. rewrite bpow_opp.
    replace (IZR D * / pow10 k - IZR n / IZR d)%R with ((IZR D - IZR n / IZR d * pow10 k) * / pow10 k)%R by (field; split; first [lra|apply Rgt_not_eq, bpow_gt_0]).
    rewrite Rabs_mult, (Rabs_pos_eq (/ pow10 k)) by (left; apply Rinv_0_lt_compat, bpow_gt_0).
    apply Rmult_le_compat_r; [left; apply Rinv_0_lt_compat, bpow_gt_0|]. apply Rabs_le. lra. }
  assert (P10 : 10 ^ Z.of_nat p = 10 * 10 ^ (Z.of_nat p - 1)) by (rewrite <- Z.pow_succ_r by lia; f_equal; lia).
  assert (Ppos : 0 < 10 ^ (Z.of_nat p - 1)) by (apply Z.pow_pos_nonneg; lia).
  destruct (Z.eqb_spec D (10 ^ Z.of_nat p)) as [E|E].
  - split; [lia|]. split; [now right|].
    replace (IZR (10 ^ (Z.of_nat p - 1)) * pow10 (X + 1 - Z.of_nat p + 1))%R with (IZR D * pow10 (X - Z.of_nat p + 1))%R; [exact Main|].
    rewrite E, !IZR_pow10 by lia. rewrite <- !bpow_plus. f_equal. lia.
  - split; [lia|]. split; [now left|exact Main].
Qed.

(* texts of digits *)
Lemma digit_char z : 0 <= z < 10 -> nat_of_ascii (ascii_of_nat (48 + Z.to_nat z)) = (48 + Z.to_nat z)%nat.
Proof. intros H. apply nat_ascii_embedding. lia. Qed.
Lemma last_digits_spec k : forall n, 0 <= n < 10 ^ Z.of_nat k ->
  digits (last_digits k n) /\ length (last_digits k n) = k /\ natural (last_digits k n) = n.
Proof.
  induction k as [|k IH]; intros n H.
  - cbn [last_digits length natural fold_left]. split; [intros c []|]. split; [reflexivity|]. change (10 ^ Z.of_nat 0) with 1 in H. cbn. lia.
  - rewrite Nat2Z.inj_succ, Z.pow_succ_r in H by lia. cbn [last_digits].
    pose proof (Z.div_mod n 10 ltac:(lia)) as E. pose proof (Z.mod_pos_bound n 10 ltac:(lia)) as B.
    destruct (IH (n / 10)) as (D & L & V); [lia|]. split; [|split].
    + apply digits_app. split; [exact D|]. intros c [<-|[]]. unfold digit. rewrite digit_char by exact B. lia.
    + rewrite app_length, L. cbn. lia.
    + rewrite natural_app, V. unfold natural. cbn [length fold_left]. rewrite digit_char by exact B. change (10 ^ Z.of_nat 1) with 10. lia.
Qed.

Lemma strip_spec l : exists k, l = strip l ++ repeat "0"%char k.
Proof.
  induction l as [|c l (k & IH)]; [exists O; reflexivity|]. cbn [strip]. destruct (strip l) as [|d l'] eqn:E.
  - destruct (Ascii.eqb_spec c "0") as [->|_].
    + exists (S k). cbn [app repeat] in *. now rewrite <- IH.
    + exists k. cbn [app] in *. now rewrite <- IH.
  - exists k. cbn [app] in *. now rewrite <- IH.
Qed.
Lemma natural_zeros k : natural (repeat "0"%char k) = 0.
Proof.
  induction k as [|k IH]; [reflexivity|]. cbn [repeat]. rewrite natural_cons, IH. change (Z.of_nat (nat_of_ascii "0") - 48) with 0. lia.
Qed.
Lemma digits_zeros k : digits (repeat "0"%char k).
Proof. intros c H. apply repeat_spec in H. subst c. unfold digit. cbv. lia. Qed.

(* a number with its trailing zeros removed *)
Lemma point_decimal ip fp : digits ip -> digits fp -> ip <> [] ->
  plain_decimal (ip ++ point fp) (IZR (natural (ip ++ fp)) * pow10 (- Z.of_nat (length fp)))%R.
Proof.
  intros Hi Hf Hn. destruct (strip_spec fp) as (k & E). unfold point.
  assert (V : (IZR (natural (ip ++ fp)) * pow10 (- Z.of_nat (length fp)) = IZR (natural ip) + IZR (natural (strip fp)) / 10 ^ length (strip fp))%R).
  { rewrite E at 1. rewrite app_assoc, natural_app, natural_zeros, Z.add_0_r, repeat_length, natural_app.
    assert (Lf : Z.of_nat (length fp) = Z.of_nat (length (strip fp)) + Z.of_nat k) by (rewrite E at 1; rewrite app_length, repeat_length; lia).
    rewrite Lf, pow10_nat. rewrite bpow_opp, bpow_plus. rewrite mult_IZR, plus_IZR, mult_IZR, !pow10_pos. field. split; apply Rgt_not_eq, bpow_gt_0. }
  rewrite V. destruct (strip fp) as [|c fp'] eqn:Es.
  - rewrite app_nil_r. replace (IZR (natural ip) + IZR (natural []) / 10 ^ length (@nil ascii))%R with (IZR (natural ip)) by (cbn; field). now constructor.
  - apply pd_point; [exact Hi| |destruct ip; [congruence|discriminate]]. rewrite E in Hf. apply digits_app in Hf. apply Hf.
Qed.

Lemma exponent_digits X : -1000 < X < 1000 -> let l := last_digits (if Z.abs X <? 100 then 2 else 3) (Z.abs X) in
  digits l /\ l <> [] /\ natural l = Z.abs X.
Proof.
  intros H. cbv zeta. destruct (Z.ltb_spec (Z.abs X) 100).
  - destruct (last_digits_spec 2 (Z.abs X)) as (K1 & K2 & K3).
    + change (10 ^ Z.of_nat 2) with 100. lia.
    + split; [exact K1|]. split; [intros E; rewrite E in K2; discriminate K2|exact K3].
  - destruct (last_digits_spec 3 (Z.abs X)) as (K1 & K2 & K3).
    + change (10 ^ Z.of_nat 3) with 1000. lia.
    + split; [exact K1|]. split; [intros E; rewrite E in K2; discriminate K2|exact K3].
Qed.
Lemma general_value p n d D X : (1 <= p)%nat -> 0 < n -> 0 < d -> -1000 < leading n d < 999 -> significant p n d = (D, X) ->
  unsigned (general p n d) (IZR D * pow10 (X - Z.of_nat p + 1)).
Proof.
  intros Hp Hn Hd HX ES. pose proof (significant_spec p n d Hp Hn Hd) as S. cbv zeta in S. unfold general. rewrite ES in S |- *.
  destruct S as (HD & EX & Hv). clear Hv.
  assert (HD' : 0 <= D < 10 ^ Z.of_nat p) by (pose proof (Z.pow_pos_nonneg 10 (Z.of_nat p - 1)); lia).
  destruct (last_digits_spec p D HD') as (Dd & Ld & Vd). set (ds := last_digits p D) in *.
  assert (Cut : forall k, digits (firstn k ds) /\ digits (skipn k ds)) by (intros k; apply digits_app; now rewrite firstn_skipn).
  assert (Ne : forall k, (1 <= k)%nat -> firstn k ds <> []).
  { intros k Hk E. apply (f_equal (@length _)) in E. rewrite firstn_length, Ld in E. cbn in E. lia. }
  destruct (Z.ltb_spec X (-4)) as [C1|C1]; [|destruct (Z.leb_spec (Z.of_nat p) X) as [C2|C2]]; cbn [orb].
  1, 2: rewrite app_assoc;
    replace (IZR D * pow10 (X - Z.of_nat p + 1))%R with (IZR (natural (firstn 1 ds ++ skipn 1 ds)) * pow10 (- Z.of_nat (length (skipn 1 ds))) * powerRZ 10 X)%R;
    [apply us_exponent; [apply point_decimal; [apply Cut|apply Cut|apply Ne; lia]|]
    |rewrite firstn_skipn, Vd, skipn_length, Ld, <- (bpow_powerRZ radix10), Rmult_assoc, <- bpow_plus; f_equal; f_equal; lia].
  1, 2: destruct (exponent_digits X ltac:(lia)) as (K1 & K2 & K3); destruct (Z.ltb_spec X 0) as [C3|C3];
    [replace X with (- natural (last_digits (if Z.abs X <? 100 then 2 else 3) (Z.abs X))) at 3 by lia; now constructor
    |replace X with (natural (last_digits (if Z.abs X <? 100 then 2 else 3) (Z.abs X))) at 3 by lia; now constructor].
  destruct (Z.ltb_spec X 0) as [C3|C3]; apply us_plain.
  - change ("0"%char :: point (repeat "0"%char (Z.to_nat (- X - 1)) ++ ds)) with (["0"%char] ++ point (repeat "0"%char (Z.to_nat (- X - 1)) ++ ds)).
    replace (IZR D * pow10 (X - Z.of_nat p + 1))%R
      with (IZR (natural (["0"%char] ++ (repeat "0"%char (Z.to_nat (- X - 1)) ++ ds))) * pow10 (- Z.of_nat (length (repeat "0"%char (Z.to_nat (- X - 1)) ++ ds))))%R.
    + apply point_decimal; [intros c [<-|[]]; unfold digit; cbv; lia|apply digits_app; split; [apply digits_zeros|exact Dd]|discriminate].
    + rewrite natural_app, natural_app, natural_zeros, Vd, app_length, repeat_length, Ld. change (natural ["0"%char]) with 0.
      rewrite !Z.mul_0_l, !Z.add_0_l. f_equal. f_equal. lia.
  - replace (IZR D * pow10 (X - Z.of_nat p + 1))%R with (IZR (natural (firstn (Z.to_nat (X + 1)) ds ++ skipn (Z.to_nat (X + 1)) ds)) * pow10 (- Z.of_nat (length (skipn (Z.to_nat (X + 1)) ds))))%R.
    + apply point_decimal; [apply Cut|apply Cut|apply Ne; lia].
    + rewrite firstn_skipn, Vd, skipn_length, Ld. f_equal. f_equal. lia.
Qed.
Lemma general_decimal p n d : (1 <= p)%nat -> 0 < n -> 0 < d -> -1000 < leading n d < 999 ->
  exists v, unsigned (general p n d) v /\ (Rabs (v - IZR n / IZR d) <= / 2 * pow10 (leading n d - Z.of_nat p + 1))%R.
Proof.
  intros Hp Hn Hd HX. pose proof (significant_spec p n d Hp Hn Hd) as S. cbv zeta in S. destruct (significant p n d) as [D X] eqn:E.
  exists (IZR D * pow10 (X - Z.of_nat p + 1))%R. split; [now apply general_value|apply S].
Qed.

Lemma pow10_lt a b : (pow10 a < pow10 b)%R -> a < b.
Proof. apply lt_bpow. Qed.
Lemma leading_bounds n d : 0 < n -> 0 < d -> (bpow radix2 (-1074) <= IZR n / IZR d < bpow radix2 1024)%R -> -1000 < leading n d < 999.
Proof.
  intros Hn Hd [H1 H2]. destruct (leading_spec n d Hn Hd) as [L1 L2].
  assert (K1 : (bpow radix2 1024 <= pow10 309)%R).
  { rewrite <- (IZR_pow10 309) by lia. change (bpow radix2 1024) with (IZR (2 ^ 1024)). apply IZR_le. vm_compute. discriminate. }
  assert (K2 : (pow10 (-324) <= bpow radix2 (-1074))%R).
  { change (-324) with (- (324)). change (-1074) with (- (1074)). rewrite !bpow_opp. apply Rinv_le; [apply bpow_gt_0|].
    rewrite <- (IZR_pow10 324) by lia. change (bpow radix2 1074) with (IZR (2 ^ 1074)). apply IZR_le. vm_compute. discriminate. }
  assert (A : leading n d < 309) by (apply pow10_lt; lra). assert (B : -324 < leading n d + 1) by (apply pow10_lt; lra). lia.
Qed.

Lemma finite_quotient s m e (H : bounded 53 1024 m e = true) : let (n, d) := quotient (Zpos m) 2 e in
  0 < n /\ 0 < d /\ B2R (B754_finite s m e H) = signed s (IZR n / IZR d) /\ (bpow radix2 (-1074) <= IZR n / IZR d < bpow radix2 1024)%R.
Proof.
  pose proof (quotient_value (Zpos m) 2 e ltac:(lia) eq_refl) as Q1. pose proof (quotient_ratio radix2 (Zpos m) e) as Q2. change (radix_val radix2) with 2 in Q2.
  destruct (quotient (Z.pos m) 2 e) as [n d]. destruct Q1 as (Hn & Hd & Hz). split; [lia|]. split; [exact Hd|].
  assert (E : B2R (B754_finite s m e H) = signed s (IZR n / IZR d)).
  { rewrite Q2. cbn [B2R]. unfold F2R. cbn [Fnum Fexp]. destruct s; cbn [cond_Zopp signed]; [rewrite opp_IZR; ring|reflexivity]. }
  split; [exact E|]. assert (A : Rabs (B2R (B754_finite s m e H)) = (IZR n / IZR d)%R).
  { rewrite E. assert (P : (0 <= IZR n / IZR d)%R) by (rewrite Q2; apply Rmult_le_pos; [now apply IZR_le|apply bpow_ge_0]).
    unfold signed. destruct s; [rewrite Rabs_Ropp|]; now apply Rabs_pos_eq. }
  rewrite <- A. split; [apply (abs_B2R_ge_emin 53 1024 (B754_finite s m e H)); reflexivity|apply abs_B2R_lt_emax].
Qed.

(* the text of a finite double is a decimal number near it *)
Theorem format_decimal p x : is_finite x = true ->
  exists v, decimal (list_ascii_of_string (format_g p x)) v /\ (Rabs (v - B2R x) <= / 2 * pow10 (1 - Z.of_nat (Nat.max 1 p)) * Rabs (B2R x))%R.
Proof.
  intros F. unfold format_g. rewrite list_ascii_of_string_of_list_ascii. destruct x as [s|s| |s m e H]; try discriminate F.
  - exists (signed s 0). split.
    + assert (U : unsigned ["0"%char] 0) by (apply us_plain; apply (pd_integer ["0"%char]); [intros c [<-|[]]; unfold digit; cbv; lia|discriminate]).
      destruct s; cbn [app signed]; [now apply dc_minus|now apply dc_plus].
    + cbn [B2R]. rewrite Rabs_R0. unfold signed. destruct s; rewrite Rminus_0_r, ?Ropp_0, Rabs_R0; lra.
  - pose proof (finite_quotient s m e H) as Q. destruct (quotient (Z.pos m) 2 e) as [n d]. destruct Q as (Hn & Hd & E & B). rewrite E.
    destruct (general_decimal (Nat.max 1 p) n d ltac:(lia) Hn Hd (leading_bounds n d Hn Hd B)) as (v & U & Hv).
    destruct (leading_spec n d Hn Hd) as [L1 L2].
    exists (signed s v). split; [destruct s; cbn [app signed]; [now apply dc_minus|now apply dc_plus]|].
    assert (P : (0 <= IZR n / IZR d)%R) by (eapply Rle_trans; [apply bpow_ge_0|apply B]).
    replace (Rabs (signed s v - signed s (IZR n / IZR d)))%R with (Rabs (v - IZR n / IZR d)).
    2:{ unfold signed. destruct s; [|reflexivity]. rewrite <- Rabs_Ropp. f_equal. ring. }
    replace (Rabs (signed s (IZR n / IZR d))) with (IZR n / IZR d)%R.
    2:{ unfold signed. destruct s; [rewrite Rabs_Ropp|]; now rewrite Rabs_pos_eq. }
    eapply Rle_trans; [exact Hv|]. rewrite Rmult_assoc. apply Rmult_le_compat_l; [lra|].
    replace (leading n d - Z.of_nat (Nat.max 1 p) + 1) with ((1 - Z.of_nat (Nat.max 1 p)) + leading n d) by lia. rewrite bpow_plus.
    apply Rmult_le_compat_l; [apply bpow_ge_0|exact L1].
Qed.

(** ** Integers *)
Lemma last_digits_shift a k : forall z, last_digits (a + k) (z * 10 ^ Z.of_nat k) = last_digits a z ++ repeat "0"%char k.
Proof.
  induction k as [|k IH]; intros z.
  - rewrite Nat.add_0_r. cbn [repeat]. now rewrite app_nil_r, Z.mul_1_r.
  - rewrite Nat.add_succ_r. cbn [last_digits]. rewrite Nat2Z.inj_succ, Z.pow_succ_r by lia.
    replace (z * (10 * 10 ^ Z.of_nat k)) with (z * 10 ^ Z.of_nat k * 10) by ring. rewrite Z.div_mul, Z.mod_mul by lia.
    rewrite IH. change (ascii_of_nat (48 + Z.to_nat 0)) with "0"%char. rewrite <- app_assoc. f_equal. symmetry. apply repeat_cons.
Qed.
Lemma strip_zeros k : strip (repeat "0"%char k) = [].
Proof. induction k as [|k IH]; [reflexivity|]. cbn [repeat strip]. now rewrite IH. Qed.

Lemma general_integer p z d : (1 <= p)%nat -> 0 < z < 10 ^ Z.of_nat p -> 0 < d -> numeral_of z (general p (z * d) d).
Proof.
  intros Hp Hz Hd. destruct (decimal_length_spec z ltac:(lia)) as (L0 & L1 & L2). set (L := decimal_length z) in *.
  assert (Lp : L <= Z.of_nat p).
  { destruct (Z_lt_le_dec (Z.of_nat p) L) as [C|C]; [|exact C]. exfalso. assert (10 ^ Z.of_nat p <= 10 ^ (L - 1)) by (apply Z.pow_le_mono_r; lia). lia. }
  assert (E : leading (z * d) d = L - 1) by (unfold leading; destruct (Z.leb_spec d (z * d)); [now rewrite Z.div_mul by lia|nia]).
  set (k := Z.to_nat (Z.of_nat p - L)).
  assert (S : significant p (z * d) d = (z * 10 ^ Z.of_nat k, L - 1)).
  { unfold significant. rewrite E. replace (Z.of_nat p - 1 - (L - 1)) with (Z.of_nat k) by lia. destruct (Z.leb_spec 0 (Z.of_nat k)); [|lia].
    replace (z * d * 10 ^ Z.of_nat k) with (z * 10 ^ Z.of_nat k * d) by ring. rewrite nearest_exact by exact Hd.
    destruct (Z.eqb_spec (z * 10 ^ Z.of_nat k) (10 ^ Z.of_nat p)) as [C|_]; [|reflexivity]. exfalso.
    assert (P : 10 ^ Z.of_nat p = 10 ^ L * 10 ^ Z.of_nat k) by (rewrite <- Z.pow_add_r by lia; f_equal; lia).
    pose proof (Z.pow_pos_nonneg 10 (Z.of_nat k)). nia. }
  assert (G : general p (z * d) d = last_digits (Z.to_nat L) z).
  { unfold general. rewrite S. destruct (Z.ltb_spec (L - 1) (-4)); [lia|]. destruct (Z.leb_spec (Z.of_nat p) (L - 1)); [lia|]. cbn [orb].
    destruct (Z.ltb_spec (L - 1) 0); [lia|]. replace (L - 1 + 1) with L by lia.
    replace p with (Z.to_nat L + k)%nat at 1 2 by lia. rewrite last_digits_shift.
    assert (Len : length (last_digits (Z.to_nat L) z) = Z.to_nat L) by (apply last_digits_spec; rewrite Z2Nat.id; lia).
    rewrite firstn_app, Len, Nat.sub_diag, skipn_app, Len, Nat.sub_diag. rewrite <- Len at 1 3. rewrite firstn_all, skipn_all. cbn [firstn skipn app].
    unfold point. rewrite strip_zeros. now rewrite !app_nil_r. }
  rewrite G. destruct (last_digits_spec (Z.to_nat L) z) as (Dd & Ld & Vd); [rewrite Z2Nat.id; lia|].
  destruct (last_digits (Z.to_nat L) z) as [|c l]; [cbn in Ld; lia|]. rewrite <- Vd. apply no_positive; [exact Dd|]. intros ->.
  apply digits_cons in Dd. destruct Dd as [_ Dl]. apply natural_bounds in Dl. rewrite natural_cons in Vd. change (Z.of_nat (nat_of_ascii "0") - 48) with 0 in Vd.
  cbn [length] in Ld. replace (Z.of_nat (length l)) with (L - 1) in Dl by lia. lia.
Qed.

Theorem format_integer p x z : is_finite x = true -> B2R x = IZR z -> Z.abs z < 10 ^ Z.of_nat (Nat.max 1 p) ->
  numeral_of z (list_ascii_of_string (format_g p x)) \/ z = 0 /\ format_g p x = "-0"%string.
Proof.
  intros F E B. unfold format_g. rewrite list_ascii_of_string_of_list_ascii. destruct x as [s|s| |s m e H]; try discriminate F.
  - cbn [B2R] in E. apply eq_IZR in E. subst z. destruct s; [now right|left; constructor].
  - left. pose proof (finite_quotient s m e H) as Q. destruct (quotient (Z.pos m) 2 e) as [n d]. destruct Q as (Hn & Hd & E' & _). rewrite E' in E.
    assert (Rd : (0 < IZR d)%R) by now apply IZR_lt. assert (Rn : (0 < IZR n)%R) by now apply IZR_lt.
    assert (Ez : (IZR n / IZR d)%R = IZR (Z.abs z) /\ z = if s then - Z.abs z else Z.abs z).
    { assert (P : (0 < IZR n / IZR d)%R) by (apply Rmult_lt_0_compat; [exact Rn|now apply Rinv_0_lt_compat]). unfold signed in E. destruct s.
      - assert (Hz : z < 0) by (apply lt_IZR; lra). split; [rewrite Z.abs_neq, opp_IZR by lia; lra|lia].
      - assert (Hz : 0 < z) by (apply lt_IZR; lra). split; [rewrite Z.abs_eq by lia; exact E|lia]. }
    destruct Ez as [Ez Es]. assert (En : n = Z.abs z * d).
    { apply eq_IZR. rewrite mult_IZR, <- Ez. field. lra. }
    assert (Pz : 0 < Z.abs z) by (destruct (Z.eq_dec (Z.abs z) 0) as [C|C]; [rewrite C in En; lia|lia]).
    rewrite En. pose proof (general_integer (Nat.max 1 p) (Z.abs z) d ltac:(lia) ltac:(lia) Hd) as G.
    revert G. rewrite <- En. set (g := general _ _ _). intros G. destruct s; cbn [app]; rewrite Es; [now apply no_negative|exact G].
Qed.

(** ** What is not a number *)
Lemma reserved_not_numbers t : In t reserved -> stof t = None.
Proof. intros H. cbn in H. repeat (destruct H as [<-|H]; [vm_compute; reflexivity|]). destruct H. Qed.
Lemma letter_facts c : letter c -> is_space c = false /\ is_digit c = false /\ c <> "-"%char /\ c <> "+"%char /\ c <> "."%char.
Proof.
  intros H. unfold letter in H. repeat split.
  - unfold is_space. apply orb_false_iff. split; [apply Nat.eqb_neq; lia|]. apply andb_false_iff. right. apply Nat.leb_gt. lia.
  - unfold is_digit. apply andb_false_iff. right. apply Nat.leb_gt. lia.
  - intros ->. cbv in H. lia.
  - intros ->. cbv in H. lia.
  - intros ->. cbv in H. lia.
Qed.
(* a text that begins with a letter: a number only if it begins with inf or nan *)
Lemma stof_word c l : letter c ->
  stof (string_of_list_ascii (c :: l)) =
    if has_prefix ["i"; "n"; "f"]%char (c :: l) then Some (B754_infinity false)
    else if has_prefix ["n"; "a"; "n"]%char (c :: l) then Some B754_nan else None.
Proof.
  intros H. destruct (letter_facts c H) as (S & D & M & P & T). unfold stof. rewrite list_ascii_of_string_of_list_ascii.
  cbn [skip_space]. rewrite S. cbn [scan_sign]. destruct (Ascii.eqb_spec c "-") as [->|_]; [congruence|]. destruct (Ascii.eqb_spec c "+") as [->|_]; [congruence|].
  unfold scan_number. destruct (has_prefix ["i"; "n"; "f"]%char (c :: l)); [reflexivity|]. destruct (has_prefix ["n"; "a"; "n"]%char (c :: l)); [reflexivity|].
  replace (has_prefix ["0"; "x"]%char (c :: l)) with false.
  - unfold scan_digits. cbn [span]. rewrite D. destruct (Ascii.eqb_spec c ".") as [->|_]; [congruence|]. reflexivity.
  - symmetry. unfold has_prefix. destruct (list_eq_dec _ _ _) as [E|]; [|reflexivity]. exfalso. cbn [length firstn map] in E. injection E as E _.
    revert E. unfold lower. destruct (((65 <=? nat_of_ascii c) && (nat_of_ascii c <=? 90))%nat) eqn:B.
    + intros E. apply (f_equal nat_of_ascii) in E. apply andb_true_iff in B. destruct B as [B1 B2]. apply Nat.leb_le in B1, B2.
      rewrite nat_ascii_embedding in E by lia. change (nat_of_ascii "0") with 48%nat in E. lia.
    + intros ->. cbv in H. lia.
Qed.
Lemma short_prefix c a b d : has_prefix [a; b; d] [c] = false.
Proof. unfold has_prefix. destruct (list_eq_dec _ _ _) as [E|]; [discriminate E|reflexivity]. Qed.
Theorem stof_sane : sane_numbers stof.
Proof.
  split; [exact reserved_not_numbers|]. intros c Hc. change (String c "") with (string_of_list_ascii [c]). rewrite stof_word by exact Hc. now rewrite !short_prefix.
Qed.

(* too large numbers *)
Lemma round_float_overflow neg n d : 0 < n -> 0 < d -> (bpow radix2 128 <= IZR n / IZR d)%R -> round_float neg n d = S754_infinity neg.
Proof.
  intros Hn Hd B. destruct n as [|n|n]; try lia. destruct d as [|d|d]; try lia. unfold round_float.
  pose proof (Bdiv_correct_aux 24 128 f_prec f_max mode_NE neg n 0 false d 0) as K. cbv zeta in K.
  assert (E1 : (F2R (Float radix2 (cond_Zopp neg (Z.pos n)) 0) / F2R (Float radix2 (cond_Zopp false (Z.pos d)) 0))%R = signed neg (IZR (Z.pos n) / IZR (Z.pos d))).
  { unfold F2R. cbn [Fnum Fexp bpow]. rewrite !Rmult_1_r. destruct neg; cbn [cond_Zopp signed]; [rewrite opp_IZR; field|reflexivity]. apply IZR_neq. discriminate. }
  rewrite E1 in K. rewrite xorb_false_r in K.
  destruct (SFdiv_core_binary 24 128 (Z.pos n) 0 (Z.pos d) 0) as [[q e] l]. destruct K as [_ K].
  rewrite Rlt_bool_false in K; [exact K|].
  apply abs_round_ge_generic; [apply fexp_correct; reflexivity|apply valid_rnd_N| |].
  - apply generic_format_bpow. unfold fexp, emin. lia.
  - assert (P : (0 <= IZR (Z.pos n) / IZR (Z.pos d))%R) by (eapply Rle_trans; [apply bpow_ge_0|exact B]).
    unfold signed. destruct neg; [rewrite Rabs_Ropp|]; now rewrite Rabs_pos_eq.
Qed.
Theorem stof_overflow l v : decimal l v -> (bpow radix2 128 <= Rabs v)%R -> stof (string_of_list_ascii l) = None.
Proof.
  intros H Hv. destruct (decimal_parts l v H) as (neg & l' & v' & Hu & E & Es). unfold stof. rewrite list_ascii_of_string_of_list_ascii, Es.
  destruct (scan_unsigned l' v' Hu) as (m & k & Ek & Hm & Ev). rewrite Ek.
  pose proof (quotient_value m 10 k Hm eq_refl) as Q1. pose proof (quotient_ratio radix10 m k) as Q2. change (radix_val radix10) with 10 in Q2.
  destruct (quotient m 10 k) as [n d]. destruct Q1 as (Hn & Hd & Hz). rewrite <- Ev in Q2.
  assert (P : (0 <= v')%R) by (rewrite Ev; apply Rmult_le_pos; [now apply IZR_le|apply bpow_ge_0]).
  assert (A : Rabs v = v') by (rewrite E; unfold signed; destruct neg; [rewrite Rabs_Ropp|]; now apply Rabs_pos_eq).
  rewrite A, <- Q2 in Hv. assert (Hn' : 0 < n).
  { destruct (Z.eq_dec n 0) as [->|]; [|lia]. exfalso. unfold Rdiv in Hv. rewrite Rmult_0_l in Hv. pose proof (bpow_gt_0 radix2 128). lra. }
  now rewrite round_float_overflow.
Qed.

(** ** The form of a printed number *)
Lemma number_point ip fp : digits ip -> digits fp -> ip <> [] -> number_text (ip ++ point fp).
Proof.
  intros Hi Hf Hn. destruct (strip_spec fp) as (k & E). unfold point. destruct ip as [|c0 ip]; [congruence|].
  assert (H0 : digit c0) by (apply Hi; now left).
  destruct (strip fp) as [|c fp'] eqn:Es.
  - rewrite app_nil_r. split; [intros x Hx; left; now apply Hi|]. split; [now exists c0, ip|].
    destruct (exists_last Hn) as (l' & x & El). exists l', x. split; [exact El|]. apply Hi. rewrite El. apply in_or_app. right. now left.
  - assert (Hs : digits (c :: fp')) by (rewrite E in Hf; apply digits_app in Hf; apply Hf).
    split; [|split].
    + intros x Hx. apply in_app_or in Hx. destruct Hx as [Hx|[<-|Hx]]; [left; now apply Hi|now right|left; now apply Hs].
    + exists c0, (ip ++ "."%char :: c :: fp'). now split.
    + assert (Hc : c :: fp' <> []) by discriminate. destruct (exists_last Hc) as (l' & x & El). exists ((c0 :: ip) ++ "."%char :: l'), x.
      rewrite El, <- app_assoc. split; [reflexivity|]. apply Hs. rewrite El. apply in_or_app. right. now left.
Qed.

Lemma general_shape p n d : (1 <= p)%nat -> 0 < n -> 0 < d -> -1000 < leading n d < 999 ->
  exists X v, (X = leading n d \/ X = leading n d + 1) /\ (pow10 X <= v)%R /\
    (Rabs (v - IZR n / IZR d) <= / 2 * pow10 (leading n d - Z.of_nat p + 1))%R /\
    (-4 <= X < Z.of_nat p /\ plain_decimal (general p n d) v /\ number_text (general p n d) \/
     (X < -4 \/ Z.of_nat p <= X) /\ exists m k w, general p n d = m ++ "e"%char :: (if X <? 0 then "-"%char else "+"%char) :: k /\
       plain_decimal m w /\ number_text m /\ (1 <= w < 10)%R /\ digits k /\ k <> [] /\ natural k = Z.abs X /\ v = (w * pow10 X)%R).
Proof.
  intros Hp Hn Hd HX. pose proof (significant_spec p n d Hp Hn Hd) as S. cbv zeta in S. unfold general. destruct (significant p n d) as [D X].
  destruct S as (HD & EX & Hv). exists X, (IZR D * pow10 (X - Z.of_nat p + 1))%R. split; [exact EX|].
  assert (RD : (pow10 (Z.of_nat p - 1) <= IZR D < pow10 (Z.of_nat p))%R).
  { rewrite <- !IZR_pow10 by lia. split; [apply IZR_le|apply IZR_lt]; lia. }
  split.
  { replace X with ((Z.of_nat p - 1) + (X - Z.of_nat p + 1)) at 1 by lia. rewrite bpow_plus. apply Rmult_le_compat_r; [apply bpow_ge_0|lra]. }
  split; [exact Hv|]. clear Hv.
  assert (HD' : 0 <= D < 10 ^ Z.of_nat p) by (pose proof (Z.pow_pos_nonneg 10 (Z.of_nat p - 1)); lia).
  destruct (last_digits_spec p D HD') as (Dd & Ld & Vd). set (ds := last_digits p D) in *.
  assert (Cut : forall k, digits (firstn k ds) /\ digits (skipn k ds)) by (intros k; apply digits_app; now rewrite firstn_skipn).
  assert (Ne : forall k, (1 <= k)%nat -> firstn k ds <> []).
  { intros k Hk E. apply (f_equal (@length _)) in E. rewrite firstn_length, Ld in E. cbn in E. lia. }
  assert (O : (X < -4 \/ Z.of_nat p <= X) /\ (X <? -4) || (Z.of_nat p <=? X) = true \/ -4 <= X < Z.of_nat p /\ (X <? -4) || (Z.of_nat p <=? X) = false).
  { destruct (Z.ltb_spec X (-4)), (Z.leb_spec (Z.of_nat p) X); cbn [orb]; lia. }
  destruct O as [[C ->]|[C ->]].
  - right. split; [exact C|]. destruct (exponent_digits X ltac:(lia)) as (K1 & K2 & K3).
    exists (firstn 1 ds ++ point (skipn 1 ds)), (last_digits (if Z.abs X <? 100 then 2 else 3) (Z.abs X)),
      (IZR (natural (firstn 1 ds ++ skipn 1 ds)) * pow10 (- Z.of_nat (length (skipn 1 ds))))%R.
    split; [now rewrite <- app_assoc|]. split; [apply point_decimal; [apply Cut|apply Cut|apply Ne; lia]|].
    split; [apply number_point; [apply Cut|apply Cut|apply Ne; lia]|]. rewrite firstn_skipn, Vd, skipn_length, Ld.
    replace (- Z.of_nat (p - 1)) with (- (Z.of_nat p - 1)) by lia. split.
    + rewrite bpow_opp. assert (P : (0 < pow10 (Z.of_nat p - 1))%R) by apply bpow_gt_0. split.
      * change (IZR D * / pow10 (Z.of_nat p - 1))%R with (IZR D / pow10 (Z.of_nat p - 1))%R. apply div_lt_le; lra.
      * change (IZR D * / pow10 (Z.of_nat p - 1))%R with (IZR D / pow10 (Z.of_nat p - 1))%R. apply div_gt_lt; [exact P|].
        replace 10%R with (pow10 1) by (cbn; lra). rewrite <- bpow_plus. replace (1 + (Z.of_nat p - 1)) with (Z.of_nat p) by lia. lra.
    + split; [exact K1|]. split; [exact K2|]. split; [exact K3|]. rewrite Rmult_assoc, <- bpow_plus. f_equal. f_equal. lia.
  - left. split; [exact C|]. destruct (Z.ltb_spec X 0) as [C3|C3].
    + change ("0"%char :: point (repeat "0"%char (Z.to_nat (- X - 1)) ++ ds)) with (["0"%char] ++ point (repeat "0"%char (Z.to_nat (- X - 1)) ++ ds)).
      assert (Z0 : digits ["0"%char]) by (intros c [<-|[]]; unfold digit; cbv; lia).
      assert (Z1 : digits (repeat "0"%char (Z.to_nat (- X - 1)) ++ ds)) by (apply digits_app; split; [apply digits_zeros|exact Dd]).
      split; [|apply number_point; [exact Z0|exact Z1|discriminate]].
      replace (IZR D * pow10 (X - Z.of_nat p + 1))%R
        with (IZR (natural (["0"%char] ++ (repeat "0"%char (Z.to_nat (- X - 1)) ++ ds))) * pow10 (- Z.of_nat (length (repeat "0"%char (Z.to_nat (- X - 1)) ++ ds))))%R.
      * apply point_decimal; [exact Z0|exact Z1|discriminate].
      * rewrite natural_app, natural_app, natural_zeros, Vd, app_length, repeat_length, Ld. change (natural ["0"%char]) with 0.
        rewrite !Z.mul_0_l, !Z.add_0_l. f_equal. f_equal. lia.
    + split; [|apply number_point; [apply Cut|apply Cut|apply Ne; lia]].
      replace (IZR D * pow10 (X - Z.of_nat p + 1))%R with (IZR (natural (firstn (Z.to_nat (X + 1)) ds ++ skipn (Z.to_nat (X + 1)) ds)) * pow10 (- Z.of_nat (length (skipn (Z.to_nat (X + 1)) ds))))%R.
      * apply point_decimal; [apply Cut|apply Cut|apply Ne; lia].
      * rewrite firstn_skipn, Vd, skipn_length, Ld. f_equal. f_equal. lia.
Qed.

(* the texts of the doubles *)
Lemma finite_text p x : is_finite x = true -> (B2R x <> 0)%R -> (1 <= p)%nat ->
  exists n d s, 0 < n /\ 0 < d /\ -1000 < leading n d < 999 /\ B2R x = signed s (IZR n / IZR d) /\
    (list_ascii_of_string (format_g p x) = (if s then ["-"%char] else []) ++ general p n d) /\ (0 < IZR n / IZR d)%R.
Proof.
  intros F Nz Hp. unfold format_g. rewrite list_ascii_of_string_of_list_ascii. destruct x as [s|s| |s m e H]; try discriminate F; [now cbn in Nz|].
  pose proof (finite_quotient s m e H) as Q. destruct (quotient (Z.pos m) 2 e) as [n d]. destruct Q as (Hn & Hd & E' & B).
  exists n, d, s. split; [exact Hn|]. split; [exact Hd|]. split; [now apply leading_bounds|]. split; [exact E'|].
  rewrite Nat.max_r by exact Hp. split; [reflexivity|]. apply Rdiv_lt_0_compat; now apply IZR_lt.
Qed.

(** ** Texts tell numbers apart *)
Lemma decimal_fun l v v' : decimal l v -> decimal l v' -> v = v'.
Proof.
  intros H H'. destruct (decimal_parts l v H) as (s & m & u & Hu & E & Es), (decimal_parts l v' H') as (s' & m' & u' & Hu' & E' & Es').
  rewrite Es in Es'. injection Es' as <- <-. destruct (scan_unsigned m u Hu) as (a & k & Ea & _ & Va), (scan_unsigned m u' Hu') as (a' & k' & Ea' & _ & Va').
  rewrite Ea in Ea'. injection Ea' as <- <-. congruence.
Qed.

(* a number with few digits, up to a small error, is printed with these digits *)
Lemma significant_short p eps n d z k : (1 <= p)%nat -> (0 <= eps)%R -> (eps * pow10 (Z.of_nat p) <= / 8)%R -> 0 < n -> 0 < d ->
  10 ^ (Z.of_nat p - 1) <= z < 10 ^ Z.of_nat p -> (Rabs (IZR n / IZR d - IZR z * pow10 k) <= eps * (IZR z * pow10 k))%R ->
  significant p n d = (z, k + Z.of_nat p - 1).
Proof.
  intros Hp Ee T Hn Hd Hz Hw. pose proof (significant_spec p n d ltac:(lia) Hn Hd) as S. cbv zeta in S. destruct (significant p n d) as [D X].
  destruct S as (HD & EX & Hv). destruct (leading_spec n d Hn Hd) as [L1 L2]. set (q := (IZR n / IZR d)%R) in *. set (P := Z.of_nat p) in *.
  assert (HP : 1 <= P) by (unfold P; lia). set (X0 := leading n d) in *.
  assert (RZ : (pow10 (P - 1) <= IZR z <= pow10 P - 1)%R).
  { rewrite <- !IZR_pow10 by lia. rewrite <- minus_IZR. split; apply IZR_le; lia. }
  assert (RD : (pow10 (P - 1) <= IZR D <= pow10 P - 1)%R).
  { rewrite <- !IZR_pow10 by lia. rewrite <- minus_IZR. split; apply IZR_le; lia. }
  assert (K0 : (0 < pow10 k)%R) by apply bpow_gt_0.
  assert (Ep : pow10 P = (10 * pow10 (P - 1))%R) by (replace P with (1 + (P - 1)) at 1 by lia; rewrite bpow_plus; reflexivity).
  assert (P1 : (1 <= pow10 (P - 1))%R) by (change 1%R with (pow10 0); apply bpow_le; lia).
  assert (W1 : (eps * (IZR z * pow10 k) <= / 8 * pow10 k)%R).
  { rewrite <- Rmult_assoc. apply Rmult_le_compat_r; [lra|]. apply Rle_trans with (2 := T). apply Rmult_le_compat_l; [exact Ee|lra]. }
  apply Rabs_le_inv in Hw.
  (* the leading digit *)
  assert (U : X0 < k + P).
  { apply pow10_lt. apply Rle_lt_trans with (1 := L1). rewrite bpow_plus. nra. }
  assert (V : k + P - 2 <= X0).
  { enough (k + P - 2 < X0 + 1) by lia. apply pow10_lt. apply Rlt_le_trans with q; [|lra]. replace (k + P - 2) with (k + (P - 2)) by lia. rewrite bpow_plus.
    assert (E2 : pow10 (P - 1) = (10 * pow10 (P - 2))%R) by (replace (P - 1) with (1 + (P - 2)) by lia; rewrite bpow_plus; reflexivity).
    assert (P2 : (0 < pow10 (P - 2))%R) by apply bpow_gt_0. nra. }
  assert (EX' : X = k + P - 1).
  { destruct EX as [-> | ->].
    - destruct (Z.eq_dec X0 (k + P - 2)) as [E|E]; [|lia]. exfalso.
      (* q is below 10^(k+P-1), z is at least 10^(P-1) *)
      rewrite E in *. replace (k + P - 2 - P + 1) with (k - 1) in Hv by lia. replace (k + P - 2 + 1) with ((P - 1) + k) in L2 by lia. rewrite bpow_plus in L2.
      assert (E1 : pow10 k = (10 * pow10 (k - 1))%R) by (replace k with (1 + (k - 1)) at 1 by lia; rewrite bpow_plus; reflexivity).
      set (a := pow10 (k - 1)) in *. assert (A0 : (0 < a)%R) by (rewrite E1 in K0; lra). apply Rabs_le_inv in Hv.
      (* z 10^k (1 - eps) <= q < 10^(P-1) 10^k *)
      assert (B1 : ((1 - eps) * (IZR z * pow10 k) < pow10 (P - 1) * pow10 k)%R) by lra.
      assert (B2 : ((1 - eps) * IZR z < pow10 (P - 1))%R) by (apply Rmult_lt_reg_r with (pow10 k); lra).
      assert (B3 : (IZR z < pow10 (P - 1) + / 8)%R) by nra.
      assert (B4 : (eps * IZR z <= eps * pow10 P)%R) by (apply Rmult_le_compat_l; lra).
      assert (B5 : (eps * IZR z <= / 40)%R).
      { apply Rle_trans with (eps * (pow10 (P - 1) + / 8))%R; [apply Rmult_le_compat_l; lra|]. rewrite Ep in T.
        assert (eps <= / 80)%R by nra. nra. }
      assert (B6 : (IZR D * a <= (pow10 P - 1) * a)%R) by (apply Rmult_le_compat_r; lra).
      assert (B7 : (pow10 (P - 1) * pow10 k <= IZR z * pow10 k)%R) by (apply Rmult_le_compat_r; lra).
      assert (B8 : (eps * (IZR z * pow10 k) <= / 40 * pow10 k)%R) by (rewrite <- Rmult_assoc; apply Rmult_le_compat_r; lra).
      rewrite E1 in B7, B8, Hw. rewrite Ep in B6. nra.
    - destruct (Z.eq_dec X0 (k + P - 2)) as [E|E]; [lia|]. exfalso. assert (E' : X0 = k + P - 1) by lia. rewrite E' in Hv.
      replace (k + P - 1 + 1 - P + 1) with (1 + k) in Hv by lia. replace (k + P - 1 - P + 1) with k in Hv by lia. rewrite bpow_plus in Hv. change (pow10 1) with 10%R in Hv.
      apply Rabs_le_inv in Hv. assert (B : (pow10 (P - 1) * pow10 k <= IZR D * pow10 k)%R) by (apply Rmult_le_compat_r; lra).
      assert (B' : (IZR z * pow10 k <= (pow10 P - 1) * pow10 k)%R) by (apply Rmult_le_compat_r; lra). rewrite Ep in B'. nra. }
  subst X. f_equal. replace (k + P - 1 - P + 1) with k in Hv by lia.
  assert (A : (/ 2 * pow10 (X0 - P + 1) <= / 2 * pow10 k)%R) by (apply Rmult_le_compat_l; [lra|apply bpow_le; lia]).
  assert (F : (Rabs (IZR D * pow10 k - IZR z * pow10 k) <= 5 / 8 * pow10 k)%R).
  { apply Rabs_le. apply Rabs_le_inv in Hv. lra. }
  replace (IZR D * pow10 k - IZR z * pow10 k)%R with (IZR (D - z) * pow10 k)%R in F by (rewrite minus_IZR; ring).
  rewrite Rabs_mult, (Rabs_pos_eq (pow10 k)) in F by lra. apply Rmult_le_reg_r in F; [|exact K0]. rewrite <- abs_IZR in F.
  assert (Z.abs (D - z) < 1); [|lia]. apply lt_IZR. lra.
Qed.

Theorem format_short p x z k : (1 <= p)%nat -> is_finite x = true -> z <> 0 -> Z.abs z < 10 ^ Z.of_nat p ->
  (Rabs (B2R x - IZR z * pow10 k) <= / 8 * pow10 (- Z.of_nat p) * Rabs (IZR z * pow10 k))%R ->
  decimal (list_ascii_of_string (format_g p x)) (IZR z * pow10 k).
Proof.
  intros Hp F Nz Hz Err. set (w := (IZR z * pow10 k)%R) in *. set (eps := (/ 8 * pow10 (- Z.of_nat p))%R) in *.
  assert (K0 : (0 < pow10 k)%R) by apply bpow_gt_0.
  assert (Te : (eps * pow10 (Z.of_nat p) <= / 8)%R).
  { unfold eps. rewrite Rmult_assoc, <- bpow_plus. replace (- Z.of_nat p + Z.of_nat p) with 0 by lia. cbn. lra. }
  assert (Ee : (0 < eps < / 2)%R).
  { unfold eps. assert (pow10 (- Z.of_nat p) <= 1)%R by (change 1%R with (pow10 0); apply bpow_le; lia). pose proof (bpow_gt_0 radix10 (- Z.of_nat p)). lra. }
  assert (Z0 : (IZR z <> 0)%R) by now apply not_0_IZR.
  assert (W0 : (0 < Rabs w)%R) by (apply Rabs_pos_lt, Rmult_integral_contrapositive_currified; lra).
  assert (Nx : (B2R x <> 0)%R).
  { intros C. rewrite C in Err. unfold Rminus in Err. rewrite Rplus_0_l, Rabs_Ropp in Err. nra. }
  destruct (finite_text p x F Nx ltac:(lia)) as (n & d & s & Hn & Hd & HX & Ex & Et & Pq). set (q := (IZR n / IZR d)%R) in *.
  (* the same sign *)
  assert (Es : w = signed s (IZR (Z.abs z) * pow10 k)).
  { unfold w. rewrite abs_IZR. apply Rabs_le_inv in Err. unfold signed in *.
    destruct (Rle_or_lt 0 (IZR z)) as [C|C].
    - rewrite (Rabs_pos_eq (IZR z)) by exact C. assert (Wp : (0 < w)%R) by (apply Rmult_lt_0_compat; lra). rewrite (Rabs_pos_eq w) in Err by lra.
      destruct s; [exfalso; nra|reflexivity].
    - rewrite (Rabs_left (IZR z)) by exact C. assert (Wp : (w < 0)%R) by (unfold w; nra). rewrite (Rabs_left w) in Err by exact Wp.
      destruct s; [unfold w; ring|exfalso; nra]. }
  destruct (decimal_length_spec (Z.abs z) ltac:(lia)) as (L0 & L1 & L2). set (L := decimal_length (Z.abs z)) in *.
  assert (Lp : L <= Z.of_nat p).
  { destruct (Z_lt_le_dec (Z.of_nat p) L) as [C|C]; [|exact C]. exfalso. assert (10 ^ Z.of_nat p <= 10 ^ (L - 1)) by (apply Z.pow_le_mono_r; lia). lia. }
  set (j := Z.of_nat p - L). assert (Ej : (IZR (Z.abs z * 10 ^ j) * pow10 (k - j) = IZR (Z.abs z) * pow10 k)%R).
  { rewrite mult_IZR, IZR_pow10 by lia. rewrite Rmult_assoc, <- bpow_plus. f_equal. f_equal. lia. }
  assert (S : significant p n d = (Z.abs z * 10 ^ j, k - j + Z.of_nat p - 1)).
  { apply (significant_short p eps); auto; [lra| |].
    - replace (Z.of_nat p - 1) with ((L - 1) + j) by lia. replace (Z.of_nat p) with (L + j) by lia. rewrite !Z.pow_add_r by lia.
      assert (0 < 10 ^ j) by (apply Z.pow_pos_nonneg; lia). nia.
    - rewrite Ej. fold q. rewrite Ex, Es in Err. assert (A0 : (0 <= IZR (Z.abs z) * pow10 k)%R) by (apply Rmult_le_pos; [apply IZR_le; lia|lra]).
      unfold signed in Err. destruct s; [rewrite Rabs_Ropp in Err|]; rewrite (Rabs_pos_eq (IZR (Z.abs z) * pow10 k)) in Err by exact A0; [|exact Err].
      rewrite <- Rabs_Ropp. replace (- (q - IZR (Z.abs z) * pow10 k))%R with (- q - - (IZR (Z.abs z) * pow10 k))%R by ring. exact Err. }
  pose proof (general_value p n d _ _ ltac:(lia) Hn Hd HX S) as U. replace (k - j + Z.of_nat p - 1 - Z.of_nat p + 1) with (k - j) in U by lia. rewrite Ej in U.
  rewrite Et, Es. destruct s; cbn [app signed]; [now apply dc_minus|now apply dc_plus].
Qed.

(* seventeen digits tell all finite doubles apart *)
Lemma close_above x y : generic_format radix2 (FLT_exp (-1074) 53) x -> generic_format radix2 (FLT_exp (-1074) 53) y ->
  (0 <= y < x)%R -> (bpow radix2 (-53) * y < x - y)%R.
Proof.
  intros Gx Gy [H0 H]. pose proof (succ_le_lt radix2 (FLT_exp (-1074) 53) y x Gy Gx H) as S. rewrite succ_eq_pos in S by exact H0.
  pose proof (ulp_FLT_gt radix2 (-1074) 53 y) as U. rewrite Rabs_pos_eq in U by exact H0. rewrite Rmult_comm. change (- (53)) with (-53) in U. lra.
Qed.
Lemma close_doubles x y : generic_format radix2 (FLT_exp (-1074) 53) x -> generic_format radix2 (FLT_exp (-1074) 53) y -> (x <> y)%R ->
  (bpow radix2 (-53) * Rmin (Rabs x) (Rabs y) < Rabs (x - y))%R.
Proof.
  assert (Pos : forall x y, generic_format radix2 (FLT_exp (-1074) 53) x -> generic_format radix2 (FLT_exp (-1074) 53) y -> (x <> y)%R -> (0 <= x)%R -> (0 <= y)%R ->
    (bpow radix2 (-53) * Rmin x y < Rabs (x - y))%R).
  { clear x y. intros x y Gx Gy N Hx Hy. destruct (Rle_or_lt x y) as [C|C].
    - rewrite Rmin_left, Rabs_minus_sym, Rabs_pos_eq by lra. apply close_above; auto; lra.
    - rewrite Rmin_right, Rabs_pos_eq by lra. now apply close_above. }
  assert (Ee : (0 < bpow radix2 (-53) < 1)%R) by (split; [apply bpow_gt_0|change 1%R with (bpow radix2 0); apply bpow_lt; lia]).
  assert (Opp : forall x y, (0 <= x)%R -> (y < 0)%R -> (bpow radix2 (-53) * Rmin (Rabs x) (Rabs y) < Rabs (x - y))%R).
  { clear x y. intros x y Hx Hy. rewrite (Rabs_pos_eq x), (Rabs_left y), (Rabs_pos_eq (x - y)) by lra. pose proof (Rmin_r x (- y)) as M. pose proof (Rmin_glb x (- y) 0 ltac:(lra) ltac:(lra)). nra. }
  intros Gx Gy N. destruct (Rle_or_lt 0 x) as [Hx|Hx], (Rle_or_lt 0 y) as [Hy|Hy].
  - rewrite !(Rabs_pos_eq x), !(Rabs_pos_eq y) by assumption. now apply Pos.
  - now apply Opp.
  - rewrite Rmin_comm, Rabs_minus_sym. now apply Opp.
  - rewrite !(Rabs_left x), !(Rabs_left y) by assumption. rewrite <- Rabs_Ropp. replace (- (x - y))%R with (- x - - y)%R by ring.
    apply Pos; try (now apply generic_format_opp); lra.
Qed.
Theorem format_17 x y : is_finite x = true -> is_finite y = true -> format_g 17 x = format_g 17 y -> x = y.
Proof.
  intros Fx Fy E. destruct (format_decimal 17 x Fx) as (v & Dx & Ax), (format_decimal 17 y Fy) as (v' & Dy & Ay). rewrite <- E in Dy.
  pose proof (decimal_fun _ _ _ Dx Dy) as <-. change (1 - Z.of_nat (Nat.max 1 17)) with (-16) in *.
  assert (EB : B2R x = B2R y).
  { destruct (Req_dec (B2R x) (B2R y)) as [C|C]; [exact C|exfalso].
    pose proof (close_doubles _ _ (generic_format_B2R 53 1024 x) (generic_format_B2R 53 1024 y) C) as K. cbv beta in K.
    set (t := pow10 (-16)) in *. set (eps := bpow radix2 (-53)) in *.
    assert (Ht : (t = / IZR (10 ^ 16))%R) by reflexivity. assert (He : (eps = / IZR (2 ^ 53))%R) by reflexivity.
    assert (C1 : (0 < t)%R) by apply bpow_gt_0. assert (C3 : (10 / 9 * t <= 1)%R) by (rewrite Ht; vm_compute Z.pow; lra).
    assert (C2 : (11 / 10 * t <= eps)%R) by (rewrite Ht, He; vm_compute Z.pow; lra).
    assert (Tri : (Rabs (B2R x - B2R y) <= / 2 * t * (Rabs (B2R x) + Rabs (B2R y)))%R).
    { replace (B2R x - B2R y)%R with (- (v - B2R x) + (v - B2R y))%R by ring. eapply Rle_trans; [apply Rabs_triang|]. rewrite Rabs_Ropp. lra. }
    pose proof (Rabs_triang_inv (B2R x) (B2R y)) as T1. pose proof (Rabs_triang_inv (B2R y) (B2R x)) as T2. rewrite (Rabs_minus_sym (B2R y)) in T2.
    pose proof (Rabs_pos (B2R x)). pose proof (Rabs_pos (B2R y)). assert (D0 : (0 < Rabs (B2R x - B2R y))%R) by (apply Rabs_pos_lt; lra).
    set (D := Rabs (B2R x - B2R y)) in *. set (a := Rabs (B2R x)) in *. set (b := Rabs (B2R y)) in *.
    assert (t <= / 100)%R by (rewrite Ht; vm_compute Z.pow; lra).
    assert (M : (a + b <= 2 * Rmin a b + D)%R) by (unfold Rmin; destruct (Rle_dec a b); lra).
    assert (Mp : (0 <= Rmin a b)%R) by (apply Rmin_glb; lra). set (m := Rmin a b) in *.
    assert (Q1 : (/ 2 * t * (a + b) <= / 2 * t * (2 * m + D))%R) by (apply Rmult_le_compat_l; lra).
    assert (Q2 : (t * D <= / 100 * D)%R) by (apply Rmult_le_compat_r; lra).
    assert (Q3 : (11 / 10 * t * m <= eps * m)%R) by (apply Rmult_le_compat_r; lra). nra. }
  destruct (Req_dec (B2R x) 0) as [Z|Z].
  - assert (Zx : exists s, x = B754_zero s) by (destruct x; try discriminate Fx; [eauto|exfalso; cbn in Z; apply eq_0_F2R in Z; destruct s; discriminate Z]).
    assert (Zy : exists s, y = B754_zero s) by (rewrite EB in Z; destruct y; try discriminate Fy; [eauto|exfalso; cbn in Z; apply eq_0_F2R in Z; destruct s; discriminate Z]).
    destruct Zx as [[] ->], Zy as [[] ->]; try reflexivity; vm_compute in E; discriminate E.
  - apply B2R_inj; [apply is_finite_strict_B2R; exact Z|apply is_finite_strict_B2R; now rewrite <- EB|exact EB].
Qed.
