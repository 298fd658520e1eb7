(** Property C91, and what decimal numbers add to C57, C87 and C89. *)
From Coq Require Import String Ascii Bool Arith ZArith QArith Reals Lra Lia.
From Flocq Require Import Core Relative Plus_error BinarySingleNaN.
From Coq Require Import List.
From Verif Require Import Base Num Expr Simplify MathMLSer InFixSer FromInFix Frontends TeXSer
  Spec SpecMarkup SpecText SpecPoly SpecLine SpecInput SpecNumeral SpecDecimal DoubleNum Numerals NumeralProofs InFixProofs LineProofs InputProofs
  PropertiesSimplify PropertiesFrontends PropertiesInput PropertiesMathML PropertiesNumeral.
Import ListNotations.
Open Scope string_scope.
Open Scope Z_scope.
Open Scope list_scope.

Notation sess := (session fmt5 stof).

(** ** C87: numbers near a decimal with few digits are printed as this decimal *)
Theorem c87_short_partial : forall p (x : double) z k, (1 <= p)%nat -> is_finite x = true -> z <> 0 -> Z.abs z < 10 ^ Z.of_nat p ->
  (Rabs (B2R x - IZR z * powerRZ 10 k) <= / 8 * powerRZ 10 (- Z.of_nat p) * Rabs (IZR z * powerRZ 10 k))%R ->
  decimal (chars (format_g p x)) (IZR z * powerRZ 10 k).
Proof. intros p x z k. rewrite <- !(bpow_powerRZ radix10). apply format_short. Qed.
Print Assumptions c87_short_partial.

(** Seventeen digits, with which matrix entries are printed in MathML, tell all
    finite numbers apart. *)
Theorem c87_seventeen : forall x y : double, is_finite x = true -> is_finite y = true -> format_g 17 x = format_g 17 y -> x = y.
Proof. exact format_17. Qed.
Print Assumptions c87_seventeen.

(** The numbers nearest to a decimal with at most 5 digits, among those with
    [prec] binary digits; and the literal 0. *)
Definition typable (emin prec : Z) (x : double) : Prop :=
  x = B754_zero false \/
  is_finite x = true /\ exists v, few_digits 5 v /\ (bpow radix2 (emin + prec - 1) <= Rabs v)%R /\ B2R x = round radix2 (FLT_exp emin prec) ZnearestE v.
Section Typable.
  Variables emin prec : Z.
  Hypothesis prec_24 : 24 <= prec.
  Local Instance prec_pos : Prec_gt_0 prec.
  Proof. unfold Prec_gt_0. lia. Qed.
  Lemma typable_text x : typable emin prec x ->
    exists v, decimal (chars (fmt5 x)) v /\ (x = B754_zero false /\ v = 0%R \/
      is_finite x = true /\ v <> 0%R /\ B2R x <> 0%R /\ B2R x = round radix2 (FLT_exp emin prec) ZnearestE v).
  Proof.
    intros [->|(F & v & (z & k & Hz & Ev) & Low & V)].
    - exists 0%R. split; [|now left]. assert (K : chars (fmt5 (B754_zero false)) = ["0"%char]) by (vm_compute; reflexivity). rewrite K.
      apply dc_plus, us_plain, (pd_integer ["0"%char]); [|discriminate]. intros c [<-|[]]. cbv; lia.
    - assert (Nv : v <> 0%R) by (intros ->; rewrite Rabs_R0 in Low; pose proof (bpow_gt_0 radix2 (emin + prec - 1)); lra).
      pose proof (relative_error_N_FLT radix2 emin prec prec_pos (fun z => negb (Z.even z)) v Low) as K. rewrite <- V in K. cbv beta in K.
      assert (B : (bpow radix2 (- prec + 1) <= / IZR (2 ^ 23))%R) by (change (/ IZR (2 ^ 23))%R with (bpow radix2 (-23)); apply bpow_le; lia). vm_compute Z.pow in B.
      pose proof (Rabs_pos v) as Pv. assert (K' : (Rabs (B2R x - v) <= / 16777216 * Rabs v)%R) by nra.
      exists v. split; [|right; split; [exact F|]; split; [exact Nv|]; split; [|exact V]].
      + rewrite Ev. apply c87_short_partial; [lia|exact F| |exact Hz|].
        * intros ->. apply Nv. rewrite Ev. ring.
        * rewrite <- Ev. eapply Rle_trans; [exact K'|]. apply Rmult_le_compat_r; [exact Pv|].
          change (powerRZ 10 (- Z.of_nat 5)) with (/ (10 * (10 * (10 * (10 * (10 * 1))))))%R. lra.
      + intros C. rewrite C in K'. unfold Rminus in K'. rewrite Rplus_0_l, Rabs_Ropp in K'. apply Rabs_pos_lt in Nv. lra.
  Qed.
  Lemma typable_apart : told_apart fmt5 (typable emin prec).
  Proof.
    intros x y Hx Hy E. destruct (typable_text x Hx) as (v & D & Cx), (typable_text y Hy) as (w & D' & Cy). rewrite <- E in D'.
    pose proof (decimal_fun _ _ _ D D') as <-. destruct Cx as [[-> Zx]|(Fx & Nx & Rx & Vx)], Cy as [[-> Zy]|(Fy & Ny & Ry & Vy)]; try reflexivity; try lra.
    apply B2R_inj; [now apply is_finite_strict_B2R|now apply is_finite_strict_B2R|congruence].
  Qed.
End Typable.

(** ** C57 with the machine's numbers *)
(** Expressions whose literals are decimals with at most 5 digits, rounded to
    doubles or, as typed numbers are, to floats, and whose matrices have finite
    entries, are told apart by their MathML. *)
Theorem c57_doubles : forall pw lg pwx lgx, let N := double_ops pw lg pwx lgx in
  forall emin prec, In (emin, prec) [(-1074, 53); (-149, 24)] ->
  forall e f : expr double, PropertiesMathML.distinct (typable emin prec) (fun x => is_finite x = true) e ->
  PropertiesMathML.distinct (typable emin prec) (fun x => is_finite x = true) f ->
  (mathml fmt5 (format_g 17) e = mathml fmt5 (format_g 17) f <-> regroup (SpecMarkup.blank e) (SpecMarkup.blank f)).
Proof.
  intros pw lg pwx lgx N emin prec H e f. apply c57_exact; [|exact c87_seventeen]. apply typable_apart.
  destruct H as [H|[H|[]]]; injection H as <- <-; lia.
Qed.
Print Assumptions c57_doubles.
Lemma float_range v : (0 <= v <= 10 ^ 38)%R -> (Rabs (round32 v) < bpow radix2 128)%R.
Proof.
  intros H. apply Rle_lt_trans with (bpow radix2 127); [|apply bpow_lt; lia].
  apply abs_round_le_generic; [apply FLT_exp_valid; reflexivity|apply valid_rnd_N|apply generic_format_bpow; unfold FLT_exp; lia|].
  rewrite Rabs_pos_eq by lra. change (bpow radix2 127) with (IZR (2 ^ 127)). vm_compute Z.pow. lra.
Qed.
(** A typed number with at most 5 digits is such a literal. *)
Theorem c57_typed : forall l v, plain_decimal l v -> few_digits 5 v -> (bpow radix2 (-126) <= v <= 10 ^ 38)%R ->
  exists x, stof (str l) = Some x /\ typable (-149) 24 x.
Proof.
  intros l v D Fd B. assert (P : (0 < v)%R) by (pose proof (bpow_gt_0 radix2 (-126)); lra).
  destruct (stof_decimal l v) as (x & E & F & V); [now apply dc_plus, us_plain|right; now rewrite Rabs_pos_eq by lra|apply float_range; lra|].
  exists x. split; [exact E|]. right. split; [exact F|]. exists v. split; [exact Fd|]. rewrite Rabs_pos_eq by lra. split; [apply B|exact V].
Qed.
Print Assumptions c57_typed.
Example c57_doubles_case : exists x, stof "0.1" = Some x /\ typable (-149) 24 x /\
  PropertiesMathML.distinct (typable (-149) 24) (fun x => is_finite x = true) (EMul (EReal x) (EMat 1 2 [d_of 1 (-3); d_of 1 0])).
Proof.
  destruct (c57_typed (text "0.1") (IZR 0 + IZR 1 / 10 ^ 1)%R) as (x & E & T).
  - apply (pd_point (text "0") (text "1")); [| |discriminate]; intros c [<-|[]]; cbv; lia.
  - exists 1, (-1). split; [reflexivity|]. change (powerRZ 10 (-1)) with (/ (10 * 1))%R. lra.
  - split; [|lra]. apply Rle_trans with (bpow radix2 (-10)); [apply bpow_le; lia|]. change (bpow radix2 (-10)) with (/ 1024)%R. lra.
  - exists x. split; [exact E|]. split; [exact T|]. repeat split; auto; cbn [matrices literals]; repeat constructor; auto; vm_compute; reflexivity.
Qed.

(** ** C89: a typed number with at most 5 digits is read back *)
Lemma short_text : forall l v, plain_decimal l v -> few_digits 5 v -> (0.0001 <= v <= 99999)%R ->
  exists x, stof (str l) = Some x /\ number_text (chars (fmt5 x)) /\ stof (fmt5 x) = Some x.
Proof.
  intros l v D Fd B.
  assert (R : (v = 0 \/ bpow radix2 (-126) <= Rabs v)%R).
  { right. rewrite Rabs_pos_eq by lra. apply Rle_trans with (bpow radix2 (-14)); [apply bpow_le; lia|]. change (bpow radix2 (-14)) with (/ 16384)%R. lra. }
  destruct (stof_decimal l v) as (x & E & F & V); [now apply dc_plus, us_plain|exact R|apply float_range; lra|].
  exists x. split; [exact E|]. destruct (c86_float_partial l v) as (x' & E' & _ & _ & A); [now apply dc_plus, us_plain|exact R|apply float_range; lra|].
  rewrite E in E'. injection E' as <-. change (bpow radix2 (-24)) with (/ 16777216)%R in A. rewrite (Rabs_pos_eq v) in A by lra. pose proof A as A'. apply Rabs_le_inv in A'.
  destruct (finite_text 5 x F ltac:(lra) ltac:(lia)) as (n & d & s & Hn & Hd & HL & Ex & T & P).
  assert (s = false) as -> by (destruct s; [unfold signed in Ex; lra|reflexivity]). cbn [signed] in Ex. cbn [app] in T. rewrite Ex in *.
  assert (Dv : decimal (chars (fmt5 x)) v).
  { destruct Fd as (z & k & Hz & Ev). rewrite Ev. apply c87_short_partial; [lia|exact F| |exact Hz|].
    - intros ->. rewrite Ev in B. lra.
    - rewrite <- Ev, Ex. rewrite (Rabs_pos_eq v) by lra. change (powerRZ 10 (- Z.of_nat 5)) with (/ (10 * (10 * (10 * (10 * (10 * 1))))))%R. lra. }
  destruct (general_shape 5 n d ltac:(lia) Hn Hd HL) as (X & w & EX & Hw & Aw & S). fold (fmt5 x) in T. rewrite T in Dv.
  destruct (leading_spec n d Hn Hd) as [L1 L2]. set (q := (IZR n / IZR d)%R) in *.
  assert (Nt : number_text (general 5 n d)).
  { destruct S as [(_ & _ & Nt)|(CX & m & k & u & Eg & Dm & Nm & Bu & Dk & Nk & Ek & Ew)]; [exact Nt|exfalso].
    assert (Dw : decimal (general 5 n d) w).
    { apply dc_plus. rewrite Eg, Ew. rewrite (bpow_powerRZ radix10). destruct (Z.ltb_spec X 0) as [C|C].
      - replace X with (- natural k) by lia. apply us_exponent; [exact Dm|]. now constructor.
      - replace X with (natural k) by lia. apply us_exponent; [exact Dm|]. now constructor. }
    pose proof (decimal_fun _ _ _ Dv Dw) as <-. destruct CX as [CX|CX].
    - assert (v < bpow radix10 (X + 1))%R by (rewrite Ew, Z.add_comm, bpow_plus; change (bpow radix10 1) with 10%R; apply Rmult_lt_compat_r; [apply bpow_gt_0|lra]).
      assert (bpow radix10 (X + 1) <= bpow radix10 (-4))%R by (apply bpow_le; lia). change (bpow radix10 (-4)) with (/ 10000)%R in *. lra.
    - assert (bpow radix10 5 <= bpow radix10 X)%R by (apply bpow_le; lia). change (bpow radix10 5) with 100000%R in *. lra. }
  rewrite T, (str_chars _ _ T). split; [exact Nt|].
  destruct (stof_decimal _ v Dv R) as (y & Ey & Fy & Vy); [apply float_range; lra|]. rewrite Ey. f_equal.
  apply B2R_inj; [apply is_finite_strict_B2R; rewrite Vy, <- V; lra|apply is_finite_strict_B2R; rewrite Ex; lra|rewrite Vy, Ex; now symmetry].
Qed.
Theorem c89_short_partial : forall l v, plain_decimal l v -> few_digits 5 v -> (0.0001 <= v <= 99999)%R ->
  exists x, stof (str l) = Some x /\ from_infix stof true (preprocess (fmt5 x)) = ret (EReal x).
Proof.
  intros l v D Fd B. destruct (short_text l v D Fd B) as (x & E & N & E'). exists x. split; [exact E|].
  rewrite (str_chars (fmt5 x) _ eq_refl) in E' |- *. now apply number_means.
Qed.
Print Assumptions c89_short_partial.

(** ** C91: Typed decimal arithmetic is answered with its value *)
(* the words *)
Lemma cut_point_spec l : let (ip, fp) := cut_point l in match fp with Some fp => l = ip ++ "."%char :: fp | None => l = ip end.
Proof.
  induction l as [|c l IH]; [reflexivity|]. cbn [cut_point]. destruct (Ascii.eqb_spec c ".") as [->|_]; [reflexivity|].
  destruct (cut_point l) as [ip [fp|]]; now subst l.
Qed.
Lemma all_digits_spec l : all_digits l = true -> digits l.
Proof.
  intros H c Hc. unfold all_digits in H. rewrite forallb_forall in H. specialize (H c Hc). apply andb_true_iff in H. destruct H as [H1 H2].
  apply Nat.leb_le in H1, H2. now split.
Qed.
Lemma decimal_word_spec s v : decimal_word s = Some v -> plain_decimal (chars s) v.
Proof.
  unfold decimal_word. pose proof (cut_point_spec (chars s)) as K. destruct (cut_point (chars s)) as [ip [fp|]]; rewrite K; clear K.
  - assert (H : ip ++ fp <> [] -> (if all_digits ip && all_digits fp then Some (IZR (natural ip) + IZR (natural fp) / 10 ^ length fp)%R else None) = Some v ->
      plain_decimal (ip ++ "."%char :: fp) v).
    { intros Hn. destruct (all_digits ip) eqn:E1; [|discriminate]. destruct (all_digits fp) eqn:E2; [|discriminate]. intros H. injection H as <-.
      apply pd_point; auto using all_digits_spec. }
    destruct ip as [|c ip]; [destruct fp as [|d fp]; [discriminate|]|]; apply H; discriminate.
  - destruct ip as [|c ip]; [discriminate|]. destruct (all_digits (c :: ip)) eqn:E; [|discriminate]. intros H. injection H as <-.
    apply pd_integer; [now apply all_digits_spec|discriminate].
Qed.

Lemma digits_word l : all_digits l = true -> cut_point l = (l, None) -> l <> [] -> forall z, natural l = z -> decimal_word (str l) = Some (IZR z).
Proof.
  intros D C Nl z <-. unfold decimal_word. rewrite list_ascii_of_string_of_list_ascii, C, D. now destruct l.
Qed.

Lemma inv_pow2 n : (/ 2 ^ n = bpow radix2 (- Z.of_nat n))%R.
Proof. rewrite bpow_opp. f_equal. rewrite (pow_IZR 2 n). apply (IZR_Zpower radix2). lia. Qed.
Lemma pow_10 n : (10 ^ n = bpow radix10 (Z.of_nat n))%R.
Proof. rewrite (pow_IZR 10 n). apply (IZR_Zpower radix10). lia. Qed.

Section C91.
  Variable pw : double -> double -> double.
  Variable lg : double -> double.
  Variable pwx : double -> double -> bool.
  Variable lgx : double -> bool.
  Local Instance N91 : NumOps double := double_ops pw lg pwx lgx.

  Definition C91_statement : Prop :=
    forall l ts (e : expr R) v, means decimal_word l ts e -> clear ts -> arithmetic e v -> few_digits 5 v ->
    exists n0 t, (forall n, (n0 <= n)%nat -> sess n [str l] = ([Success t], AtEof)) /\ decimal (chars t) v.

  (** 16777217-16777216 is answered with 0. *)
  Theorem c91_refuted : ~ C91_statement.
  Proof.
    intros S. set (l := text "16777217-16777216").
    destruct (S l (wd l) (ESub (EReal (IZR 16777217)) (EReal (IZR 16777216))) (IZR 16777217 - IZR 16777216)%R) as (n0 & t & A & D).
    - apply means_intro; [vm_compute; reflexivity|].
      change (infix_of decimal_word "i" 1 (["16777217"] ++ "-" :: ["16777216"]) (ESub (EReal (IZR 16777217)) (EReal (IZR 16777216)))).
      eapply ix_op; [constructor|do 3 apply ix_up; apply ix_operand, opd_number|do 2 apply ix_up; apply ix_operand, opd_number].
      + apply (digits_word (text "16777217")); [reflexivity|reflexivity|discriminate|vm_compute; reflexivity].
      + apply (digits_word (text "16777216")); [reflexivity|reflexivity|discriminate|vm_compute; reflexivity].
    - apply clear_intro. vm_compute. reflexivity.
    - repeat constructor.
    - exists 1, 0. split; [reflexivity|]. change (powerRZ 10 0) with 1%R. lra.
    - specialize (A _ (Nat.le_max_l n0 20)). assert (K : sess 20 [str l] = ([Success "0"], AtEof)) by (vm_compute; reflexivity).
      assert (U : sess (Nat.max n0 20) [str l] = sess 20 [str l]) by (apply session_unique; [rewrite A|rewrite K]; discriminate).
      rewrite A, K in U. injection U as ->.
      assert (D0 : decimal (chars "0") (IZR 0)).
      { apply dc_plus, us_plain. apply (pd_integer ["0"%char]); [|discriminate]. intros c [<-|[]]; cbv; lia. }
      pose proof (decimal_fun _ _ _ D D0). lra.
  Qed.

  (* the same words, read with stof *)
  Inductive rounded : expr R -> expr double -> Prop :=
  | rd_number c (x : double) : is_finite x = true -> (Rabs (B2R x - c) <= / 2 ^ 24 * c)%R -> rounded (EReal c) (EReal x)
  | rd_bin o a b a' b' : In o [OAdd; OSub; OMul; ODiv] -> rounded a a' -> rounded b b' -> rounded (EBin o a b) (EBin o a' b').
  Fixpoint readable (e : expr R) : Prop :=
    match e with
    | EReal c => (c = 0 \/ / 10 ^ 30 <= c <= 10 ^ 38)%R
    | EBin o a b => In o [OAdd; OSub; OMul; ODiv] /\ readable a /\ readable b
    | _ => False
    end.
  Lemma number_read t c : decimal_word t = Some c -> (c = 0 \/ / 10 ^ 30 <= c <= 10 ^ 38)%R ->
    exists x, stof t = Some x /\ is_finite x = true /\ (Rabs (B2R x - c) <= / 2 ^ 24 * c)%R.
  Proof.
    intros H R. apply decimal_word_spec in H. assert (P : (0 <= c)%R).
    { destruct R as [->|R]; [lra|]. assert (0 < / 10 ^ 30)%R by (apply Rinv_0_lt_compat, pow_lt; lra). lra. }
    destruct (c86_float_partial (chars t) c) as (x & E & F & _ & A).
    - now apply dc_plus, us_plain.
    - destruct R as [R|R]; [now left|right]. rewrite Rabs_pos_eq by exact P. apply Rle_trans with (2 := proj1 R).
      change (bpow radix2 (-126)) with (/ IZR (2 ^ 126))%R. rewrite (pow_IZR 10 30). apply Rinv_le; [apply IZR_lt; reflexivity|]. apply IZR_le. vm_compute. discriminate.
    - apply float_range. destruct R as [->|R]; [|lra]. split; [lra|]. apply pow_le. lra.
    - exists x. rewrite string_of_list_ascii_of_string in E. split; [exact E|]. split; [exact F|]. rewrite (Rabs_pos_eq c) in A by exact P.
      rewrite (inv_pow2 24). exact A.
  Qed.
  Lemma decimals_read k us (e : expr R) : infix_of decimal_word "i" k us e -> readable e ->
    exists e' : expr double, infix_of stof "i" k us e' /\ rounded e e'.
  Proof.
    induction 1 as [t e H|ts e H IH|f o ts a us b Hf H1 IH1 H2 IH2|s o k ts a us b Hs H1 IH1 H2 IH2|k ts e H IH]; intros V.
    - destruct H as [t c Hc|Hc|Hc|t Hc H1 H2 H3]; [|destruct V|destruct V|destruct V].
      destruct (number_read t c Hc V) as (x & E & F & A). exists (EReal x). split; [now apply ix_operand, opd_number|now constructor].
    - destruct (IH V) as (e' & I' & V'). exists e'. split; [now apply ix_paren|exact V'].
    - exfalso. destruct V as [V _]. destruct Hf; cbn in V; intuition discriminate.
    - destruct V as (Ho & Va & Vb). destruct (IH1 Va) as (a2 & I1 & W1), (IH2 Vb) as (b2 & I2 & W2).
      exists (EBin o a2 b2). split; [now apply ix_op with (k := k)|now constructor].
    - destruct (IH V) as (e' & I' & V'). exists e'. split; [now apply ix_up|exact V'].
  Qed.
  Lemma decimals_mean l ts (e : expr R) : means decimal_word l ts e -> readable e ->
    exists e' : expr double, means stof l ts e' /\ rounded e e'.
  Proof.
    intros (ps & us & Hl & Hp & Hm & Hi) V. destruct (decimals_read 1 us e Hi V) as (e' & I' & V'). exists e'. split; [|exact V']. now exists ps, us.
  Qed.
  Lemma rounded_literal (e : expr R) e' : rounded e e' -> literal e'.
  Proof. induction 1 as [|o a b a' b' Ho _ IHa _ IHb]; cbn [literal]; [exact I|]. cbn in Ho. destruct o; try tauto; exfalso; intuition discriminate. Qed.
  Lemma error_readable e v h : error e v h -> readable e.
  Proof. induction 1; cbn [readable In]; tauto. Qed.

  (* rounding a result *)
  Lemma big_range y : (Rabs y <= 10 ^ 300)%R -> Rlt_bool (Rabs (round radix2 (SpecFloat.fexp 53 1024) (round_mode mode_NE) y)) (bpow radix2 1024) = true.
  Proof.
    intros H. apply Rlt_bool_true. apply Rle_lt_trans with (bpow radix2 1023); [|apply bpow_lt; lia].
    change (SpecFloat.fexp 53 1024) with (FLT_exp (-1074) 53). apply abs_round_le_generic; [apply FLT_exp_valid; reflexivity|apply valid_rnd_N|apply generic_format_bpow; unfold FLT_exp; lia|].
    eapply Rle_trans; [exact H|]. change (bpow radix2 1023) with (IZR (2 ^ 1023)). rewrite (pow_IZR 10 300). apply IZR_le. vm_compute. discriminate.
  Qed.
  Lemma round_error y v j : (Rabs (y - v) <= j)%R -> (/ 10 ^ 300 <= Rabs v - j)%R ->
    (Rabs (round64 y - v) <= j + / 2 ^ 53 * (Rabs v + j))%R.
  Proof.
    intros A B. assert (Y : (Rabs v - j <= Rabs y <= Rabs v + j)%R).
    { pose proof (Rabs_triang_inv v y) as T. pose proof (Rabs_triang_inv y v) as T'. rewrite (Rabs_minus_sym v y) in T. lra. }
    assert (K : (Rabs (round64 y - y) <= / 2 ^ 53 * Rabs y)%R).
    { pose proof (relative_error_N_FLT radix2 (-1074) 53 eq_refl (fun z => negb (Z.even z)) y) as K.
      replace (/ 2 ^ 53)%R with (/ 2 * bpow radix2 (- (53) + 1))%R.
      - apply K. apply Rle_trans with (/ 10 ^ 300)%R; [|lra]. change (bpow radix2 (-1074 + 53 - 1)) with (/ IZR (2 ^ 1022))%R. rewrite (pow_IZR 10 300).
        apply Rinv_le; [apply IZR_lt; reflexivity|]. apply IZR_le. vm_compute. discriminate.
      - rewrite (inv_pow2 53). change (- Z.of_nat 53) with (-1 + (- (53) + 1)). now rewrite (bpow_plus radix2 (-1)). }
    replace (round64 y - v)%R with ((round64 y - y) + (y - v))%R by ring. eapply Rle_trans; [apply Rabs_triang|].
    assert (P : (0 < / 2 ^ 53)%R) by (apply Rinv_0_lt_compat, pow_lt; lra). nra.
  Qed.
  Lemma sum_error (x y : double) v j : (Rabs (B2R x + B2R y - v) <= j)%R ->
    (Rabs (round64 (B2R x + B2R y) - v) <= j + / 2 ^ 53 * (Rabs v + j))%R.
  Proof.
    intros A. set (s := (B2R x + B2R y)%R) in *. assert (Y : (Rabs s <= Rabs v + j)%R).
    { pose proof (Rabs_triang_inv s v) as T'. lra. }
    assert (K : (Rabs (round64 s - s) <= / 2 ^ 53 * Rabs s)%R).
    { destruct (@FLT_plus_error_N_ex radix2 (-1074) 53 d_prec (fun z => negb (Z.even z)) (B2R x) (B2R y)) as (eps & He & E).
      - apply (generic_format_B2R 53 1024).
      - apply (generic_format_B2R 53 1024).
      - fold s in E. rewrite E. replace (s * (1 + eps) - s)%R with (eps * s)%R by ring. rewrite Rabs_mult. apply Rmult_le_compat_r; [apply Rabs_pos|].
        eapply Rle_trans; [exact He|]. eapply Rle_trans; [apply u_rod1pu_ro_le_u_ro|]. unfold u_ro.
        right. rewrite (inv_pow2 53). change (- Z.of_nat 53) with (-1 + (- (53) + 1)). now rewrite (bpow_plus radix2 (-1)). }
    replace (round64 s - v)%R with ((round64 s - s) + (s - v))%R by ring. eapply Rle_trans; [apply Rabs_triang|].
    assert (P : (0 < / 2 ^ 53)%R) by (apply Rinv_0_lt_compat, pow_lt; lra). nra.
  Qed.

  Lemma error_fold e v h : error e v h -> forall e', rounded e e' -> is_finite (fold_lit e') = true /\ (Rabs (B2R (fold_lit e') - v) <= h)%R.
  Proof.
    induction 1 as [c Hc|a b x y h k _ IHa _ IHb B|a b x y h k _ IHa _ IHb B|a b x y h k j _ IHa _ IHb T J B1 B2|a b x y h k j _ IHa _ IHb T J B1 B2|e v h h' _ IH L]; intros e' R.
    - inversion R; subst. cbn [fold_lit]. auto.
    - inversion R as [|o a1 b1 a' b' Ho Ra Rb]; subst. destruct (IHa _ Ra) as [Fa Aa], (IHb _ Rb) as [Fb Ab]. cbn [fold_lit fold2]. set (p := fold_lit a') in *. set (q := fold_lit b') in *.
      assert (A : (Rabs (B2R p + B2R q - (x + y)) <= h + k)%R).
      { replace (B2R p + B2R q - (x + y))%R with ((B2R p - x) + (B2R q - y))%R by ring. eapply Rle_trans; [apply Rabs_triang|]. lra. }
      pose proof (Bplus_correct 53 1024 d_prec d_max mode_NE p q Fa Fb) as K. rewrite big_range in K.
      + destruct K as (K1 & K2 & _). split; [exact K2|]. cbn [n_add N91 double_ops]. rewrite K1. now apply (sum_error p q).
      + pose proof (Rabs_triang_inv (B2R p + B2R q) (x + y)). lra.
    - inversion R as [|o a1 b1 a' b' Ho Ra Rb]; subst. destruct (IHa _ Ra) as [Fa Aa], (IHb _ Rb) as [Fb Ab]. cbn [fold_lit fold2]. set (p := fold_lit a') in *. set (q := fold_lit b') in *.
      assert (A : (Rabs (B2R p - B2R q - (x - y)) <= h + k)%R).
      { replace (B2R p - B2R q - (x - y))%R with ((B2R p - x) + - (B2R q - y))%R by ring. eapply Rle_trans; [apply Rabs_triang|]. rewrite Rabs_Ropp. lra. }
      pose proof (Bminus_correct 53 1024 d_prec d_max mode_NE p q Fa Fb) as K. rewrite big_range in K.
      + destruct K as (K1 & K2 & _). split; [exact K2|]. cbn [n_sub N91 double_ops]. rewrite K1.
        pose proof (sum_error p (Bopp q) (x - y) (h + k)) as W. rewrite B2R_Bopp in W. now apply W.
      + pose proof (Rabs_triang_inv (B2R p - B2R q) (x - y)). lra.
    - inversion R as [|o a1 b1 a' b' Ho Ra Rb]; subst. destruct (IHa _ Ra) as [Fa Aa], (IHb _ Rb) as [Fb Ab]. cbn [fold_lit fold2]. set (p := fold_lit a') in *. set (q := fold_lit b') in *.
      assert (Bp : (Rabs (B2R p) <= Rabs x + h)%R) by (pose proof (Rabs_triang_inv (B2R p) x); lra).
      assert (Lp : (/ 5000000 <= Rabs (B2R p))%R) by (pose proof (Rabs_triang_inv x (B2R p)) as W; rewrite (Rabs_minus_sym x) in W; lra).
      assert (A : (Rabs (B2R p * B2R q - x * y) <= j)%R).
      { replace (B2R p * B2R q - x * y)%R with ((B2R p - x) * (B2R q - y) + (x * (B2R q - y) + y * (B2R p - x)))%R by ring.
        eapply Rle_trans; [apply Rabs_triang|]. rewrite Rabs_mult. eapply Rle_trans; [apply Rplus_le_compat_l, Rabs_triang|]. rewrite !Rabs_mult.
        pose proof (Rabs_pos x). pose proof (Rabs_pos y). pose proof (Rabs_pos (B2R p - x)). pose proof (Rabs_pos (B2R q - y)).
        assert (Rabs (B2R p - x) * Rabs (B2R q - y) <= h * k)%R by (apply Rmult_le_compat; lra).
        assert (Rabs x * Rabs (B2R q - y) <= Rabs x * k)%R by (apply Rmult_le_compat_l; lra).
        assert (Rabs y * Rabs (B2R p - x) <= Rabs y * h)%R by (apply Rmult_le_compat_l; lra). lra. }
      assert (Tiny : tiny p = false).
      { unfold tiny. cbn [n_leb n_abs n_eps N91 double_ops]. rewrite Bleb_correct, (proj2 d_eps), B2R_Babs; [|now destruct p|apply d_eps].
        apply Rle_bool_false. apply Rlt_le_trans with (2 := Lp). change (bpow radix2 (-23)) with (/ IZR (2 ^ 23))%R. vm_compute Z.pow. lra. }
      rewrite Tiny. destruct (n_eqb p n1) eqn:E1.
      + split; [exact Fb|]. cbn [n_eqb N91 double_ops] in E1. rewrite Beqb_correct in E1; [|exact Fa|apply (d_of_int 1); unfold d_ok; lia].
        change (Req_bool (B2R p) (B2R (d_of 1 0)) = true) in E1. destruct (Req_bool_spec (B2R p) (B2R (d_of 1 0))) as [E2|_]; [|discriminate E1].
        assert (V1 : B2R (d_of 1 0) = 1%R) by (apply (d_of_int 1); unfold d_ok; lia). rewrite E2, V1, Rmult_1_l in A.
        assert (J0 : (0 <= j)%R) by (eapply Rle_trans; [apply Rabs_pos|exact A]). pose proof (Rabs_pos (x * y)).
        assert (0 <= / 2 ^ 53 * (Rabs (x * y) + j))%R by (apply Rmult_le_pos; [left; apply Rinv_0_lt_compat, pow_lt|]; lra). lra.
      + pose proof (Bmult_correct 53 1024 d_prec d_max mode_NE p q) as K. rewrite big_range in K.
        * destruct K as (K1 & K2 & _). split; [cbn [n_mul N91 double_ops]; rewrite K2, Fa, Fb; reflexivity|]. cbn [n_mul N91 double_ops]. rewrite K1. now apply round_error.
        * pose proof (Rabs_triang_inv (B2R p * B2R q) (x * y)). lra.
    - inversion R as [|o a1 b1 a' b' Ho Ra Rb]; subst. destruct (IHa _ Ra) as [Fa Aa], (IHb _ Rb) as [Fb Ab]. cbn [fold_lit fold2]. set (p := fold_lit a') in *. set (q := fold_lit b') in *.
      assert (Lq : (Rabs y - k <= Rabs (B2R q))%R) by (pose proof (Rabs_triang_inv y (B2R q)) as W; rewrite (Rabs_minus_sym y) in W; lra).
      assert (K0 : (0 <= k)%R) by (eapply Rle_trans; [apply Rabs_pos|exact Ab]). assert (H0 : (0 <= h)%R) by (eapply Rle_trans; [apply Rabs_pos|exact Aa]).
      assert (Q0 : (B2R q <> 0)%R) by (intros C; rewrite C, Rabs_R0 in Lq; lra). assert (Y0 : (y <> 0)%R) by (intros C; rewrite C, Rabs_R0 in T; lra).
      assert (A : (Rabs (B2R p / B2R q - x / y) <= j)%R).
      { apply Rle_trans with (2 := J). replace (B2R p / B2R q - x / y)%R with ((y * (B2R p - x) - x * (B2R q - y)) / (y * B2R q))%R by (field; auto).
        unfold Rdiv at 1. rewrite Rabs_mult, Rabs_inv, (Rabs_mult y). pose proof (Rabs_pos x). pose proof (Rabs_pos y).
        apply Rmult_le_compat; [apply Rabs_pos|left; apply Rinv_0_lt_compat, Rmult_lt_0_compat; lra| |].
        - unfold Rminus at 1. eapply Rle_trans; [apply Rabs_triang|]. rewrite Rabs_Ropp, !Rabs_mult.
          assert (Rabs x * Rabs (B2R q - y) <= Rabs x * k)%R by (apply Rmult_le_compat_l; lra).
          assert (Rabs y * Rabs (B2R p - x) <= Rabs y * h)%R by (apply Rmult_le_compat_l; lra). lra.
        - apply Rinv_le; [apply Rmult_lt_0_compat; lra|]. apply Rmult_le_compat_l; lra. }
      pose proof (Bdiv_correct 53 1024 d_prec d_max mode_NE p q Q0) as K. rewrite big_range in K.
      + destruct K as (K1 & K2 & _). split; [cbn [n_div N91 double_ops]; now rewrite K2|]. cbn [n_div N91 double_ops]. rewrite K1. now apply round_error.
      + pose proof (Rabs_triang_inv (B2R p / B2R q) (x / y)). lra.
    - destruct (IH e' R) as [F A]. split; [exact F|lra].
  Qed.

  (** Proved: the answer is off by at most the error bound of the expression and
      half a unit in the fifth digit; if the error is below an eighth of a unit
      in the sixth digit and the value has at most 5 digits, the answer is the
      value.  Missing: results that lose digits by cancellation, numbers and
      results out of range, and left factors near 0, which Simplify drops. *)
  Lemma error_answer l ts (e : expr R) v h : means decimal_word l ts e -> clear ts -> error e v h ->
    exists n0 c, (forall n, (n0 <= n)%nat -> sess n [str l] = ([Success (fmt5 c)], AtEof)) /\ is_finite c = true /\ (Rabs (B2R c - v) <= h)%R.
  Proof.
    intros M C E. destruct (decimals_mean l ts e M (error_readable e v h E)) as (e' & M' & R). destruct (error_fold e v h E e' R) as [F A].
    pose proof (rounded_literal e e' R) as L.
    destruct (literal_answer fmt5 stof stof_sane l ts e' (fold_lit e') M' C L) as (n0 & H).
    { exists (height e'). intros n prefer Hn. now apply literal_fold. }
    exists n0, (fold_lit e'). auto.
  Qed.
  Theorem c91_error_partial : forall l ts (e : expr R) v h, means decimal_word l ts e -> clear ts -> error e v h ->
    (h <= / 8 * / 10 ^ 5 * Rabs v)%R -> v <> 0%R -> few_digits 5 v ->
    exists n0 t, (forall n, (n0 <= n)%nat -> sess n [str l] = ([Success t], AtEof)) /\ decimal (chars t) v.
  Proof.
    intros l ts e v h M C E B V0 (z & k & Hz & Ev). destruct (error_answer l ts e v h M C E) as (n0 & c & H & F & A).
    exists n0, (fmt5 c). split; [exact H|]. rewrite Ev. apply c87_short_partial; [lia|exact F| |exact Hz|].
    - intros ->. apply V0. rewrite Ev. ring.
    - rewrite <- Ev. eapply Rle_trans; [exact A|]. eapply Rle_trans; [exact B|]. right. reflexivity.
  Qed.
  Theorem c91_accuracy_partial : forall l ts (e : expr R) v h, means decimal_word l ts e -> clear ts -> error e v h ->
    exists n0 t w, (forall n, (n0 <= n)%nat -> sess n [str l] = ([Success t], AtEof)) /\ decimal (chars t) w /\
      (Rabs (w - v) <= h + 0.00005 * (Rabs v + h))%R.
  Proof.
    intros l ts e v h M C E. destruct (error_answer l ts e v h M C E) as (n0 & c & H & F & A).
    destruct (c87_accuracy_partial 5 c F ltac:(lia)) as (w & D & Aw). exists n0, (fmt5 c), w. split; [exact H|]. split; [exact D|].
    change (powerRZ 10 (1 - Z.of_nat 5)) with (/ (10 * (10 * (10 * (10 * 1)))))%R in Aw.
    replace (w - v)%R with ((w - B2R c) + (B2R c - v))%R by ring. eapply Rle_trans; [apply Rabs_triang|].
    assert (Rabs (B2R c) <= Rabs v + h)%R by (pose proof (Rabs_triang_inv (B2R c) v); lra). lra.
  Qed.

  (** In particular: sums, products and quotients of at most 20 numbers. *)
  Definition unit_error (n : nat) : R := (0.000000059605 * INR n + 0.0000000000001 * (INR n * INR n))%R.
  Lemma unit_bounds n : (1 <= n <= 20)%nat -> (1 <= INR n <= 20)%R.
  Proof. intros H. split; [change 1%R with (INR 1)|replace 20%R with (INR 20) by (cbn; lra)]; apply le_INR; lia. Qed.
  Lemma moderate_error e v n : moderate e v n -> (/ 10 ^ 6 <= v <= 10 ^ 38)%R /\ (1 <= n)%nat /\ ((n <= 20)%nat -> error e v (unit_error n * v)).
  Proof.
    assert (P6 : (/ 10 ^ 6 = 0.000001)%R) by (cbn; lra). assert (P30 : (/ 10 ^ 30 <= 0.000001)%R) by (rewrite (pow_IZR 10 30); vm_compute Z.pow; lra).
    assert (P300 : (/ 10 ^ 300 <= 0.0000001)%R).
    { replace 0.0000001%R with (/ 10 ^ 7)%R by (cbn; lra). apply Rinv_le; [apply pow_lt; lra|]. apply Rle_pow; [lra|lia]. }
    assert (Q300 : (10 ^ 39 <= 10 ^ 300)%R) by (apply Rle_pow; [lra|lia]). assert (Q39 : (10 ^ 39 = 10 * 10 ^ 38)%R) by reflexivity.
    assert (U24 : (u24 <= 0.000000059605)%R) by (rewrite (pow_IZR 2 24); vm_compute Z.pow; lra).
    assert (U53 : (0 <= u53 <= 0.0000000000000002)%R) by (rewrite (pow_IZR 2 53); vm_compute Z.pow; lra).
    assert (Pos : forall n, (1 <= n <= 20)%nat -> (0 <= unit_error n <= 0.0000013)%R).
    { intros i Hi. apply unit_bounds in Hi. unfold unit_error. nra. }
    induction 1 as [c Hc|a b x y n m _ (Bx & Hn & Ex) _ (By & Hm & Ey) B|a b x y n m _ (Bx & Hn & Ex) _ (By & Hm & Ey) B|a b x y n m _ (Bx & Hn & Ex) _ (By & Hm & Ey) B].
    - split; [exact Hc|]. split; [lia|]. intros _. apply er_weaken with (u24 * c)%R; [constructor; right; lra|]. apply Rmult_le_compat_r; [lra|]. unfold unit_error. cbn [INR]. lra.
    - split; [exact B|]. split; [lia|]. intros L. specialize (Ex ltac:(lia)). specialize (Ey ltac:(lia)). pose proof (Pos n ltac:(lia)) as Pn. pose proof (Pos m ltac:(lia)) as Pm.
      pose proof (unit_bounds n ltac:(lia)) as Bn. pose proof (unit_bounds m ltac:(lia)) as Bm.
      eapply er_weaken; [apply (er_add _ _ _ _ _ _ Ex Ey)|].
      + rewrite Rabs_pos_eq by lra. nra.
      + rewrite Rabs_pos_eq by lra. set (s := (x + y)%R) in *.
        assert (E1 : (unit_error n + 0.00000000000000021 <= unit_error (n + m))%R) by (unfold unit_error; rewrite plus_INR; nra).
        assert (E2 : (unit_error m + 0.00000000000000021 <= unit_error (n + m))%R) by (unfold unit_error; rewrite plus_INR; nra).
        assert (F1 : (unit_error n * x <= (unit_error (n + m) - 0.00000000000000021) * x)%R) by (apply Rmult_le_compat_r; lra).
        assert (F2 : (unit_error m * y <= (unit_error (n + m) - 0.00000000000000021) * y)%R) by (apply Rmult_le_compat_r; lra).
        assert (F3 : (unit_error n * x + unit_error m * y <= 0.0000013 * s)%R) by (unfold s; nra).
        assert (F4 : (u53 * (s + (unit_error n * x + unit_error m * y)) <= 0.0000000000000002 * (s * 1.0000013))%R).
        { apply Rmult_le_compat; try lra. assert (0 <= unit_error n * x)%R by (apply Rmult_le_pos; lra). assert (0 <= unit_error m * y)%R by (apply Rmult_le_pos; lra). lra. }
        unfold s in *. lra.
    - split; [exact B|]. split; [lia|]. intros L. specialize (Ex ltac:(lia)). specialize (Ey ltac:(lia)). pose proof (Pos n ltac:(lia)) as Pn. pose proof (Pos m ltac:(lia)) as Pm.
      pose proof (unit_bounds n ltac:(lia)) as Bn. pose proof (unit_bounds m ltac:(lia)) as Bm.
      assert (Eu : (unit_error n + unit_error m + unit_error n * unit_error m + 0.00000000000000021 <= unit_error (n + m))%R).
      { assert (unit_error n <= 0.0000000596071 * INR n)%R by (unfold unit_error; nra). assert (unit_error m <= 0.0000000596071 * INR m)%R by (unfold unit_error; nra).
        assert (unit_error n * unit_error m <= (0.0000000596071 * INR n) * (0.0000000596071 * INR m))%R by (apply Rmult_le_compat; lra).
        assert (1 <= INR n * INR m)%R by nra. assert (E' : unit_error (n + m) = (unit_error n + unit_error m + 2 * 0.0000000000001 * (INR n * INR m))%R) by (unfold unit_error; rewrite plus_INR; ring). nra. }
      set (p := unit_error n) in *. set (q := unit_error m) in *. set (j := ((p + q + p * q) * (x * y))%R).
      assert (J : (j <= 0.0000027 * (x * y))%R) by (unfold j; apply Rmult_le_compat_r; [lra|nra]).
      eapply er_weaken; [apply (er_mul _ _ _ _ _ _ j Ex Ey)|].
      + rewrite Rabs_pos_eq by lra. nra.
      + rewrite !Rabs_pos_eq by lra. unfold j. right. ring.
      + rewrite Rabs_pos_eq by lra. lra.
      + rewrite Rabs_pos_eq by lra. lra.
      + rewrite Rabs_pos_eq by lra.
        assert (F : (u53 * (x * y + j) <= 0.0000000000000002 * (x * y * 1.0000027))%R) by (apply Rmult_le_compat; try lra; unfold j; apply Rplus_le_le_0_compat; [lra|]; apply Rmult_le_pos; nra).
        assert (G : ((p + q + p * q + 0.00000000000000021) * (x * y) <= unit_error (n + m) * (x * y))%R) by (apply Rmult_le_compat_r; lra). unfold j in *. lra.
    - split; [exact B|]. split; [lia|]. intros L. specialize (Ex ltac:(lia)). specialize (Ey ltac:(lia)). pose proof (Pos n ltac:(lia)) as Pn. pose proof (Pos m ltac:(lia)) as Pm.
      pose proof (unit_bounds n ltac:(lia)) as Bn. pose proof (unit_bounds m ltac:(lia)) as Bm.
      assert (Eu : ((unit_error n + unit_error m) / (1 - unit_error m) + 0.00000000000000021 <= unit_error (n + m))%R).
      { assert (Un : (unit_error n <= 0.0000000596071 * INR n)%R) by (unfold unit_error; nra). assert (Um : (unit_error m <= 0.0000000596071 * INR m)%R) by (unfold unit_error; nra).
        assert (E' : unit_error (n + m) = (unit_error n + unit_error m + 2 * 0.0000000000001 * (INR n * INR m))%R) by (unfold unit_error; rewrite plus_INR; ring).
        assert (T : ((unit_error n + unit_error m) / (1 - unit_error m) <= unit_error n + unit_error m + 1.00001 * ((unit_error n + unit_error m) * unit_error m))%R).
        { apply Rmult_le_reg_r with (1 - unit_error m)%R; [lra|]. unfold Rdiv. rewrite Rmult_assoc, Rinv_l, Rmult_1_r by lra.
          assert (0 <= (unit_error n + unit_error m) * unit_error m)%R by (apply Rmult_le_pos; lra). nra. }
        assert (S : ((unit_error n + unit_error m) * unit_error m <= (0.0000000596071 * (INR n + INR m)) * (0.0000000596071 * INR m))%R) by (apply Rmult_le_compat; lra).
        assert (S' : ((INR n + INR m) * INR m <= 21 * (INR n * INR m))%R) by nra. assert (1 <= INR n * INR m)%R by nra. nra. }
      set (p := unit_error n) in *. set (q := unit_error m) in *. set (j := ((p + q) / (1 - q) * (x / y))%R).
      assert (Lim : (unit_error (n + m) <= 0.0000013)%R) by (apply Pos; lia).
      assert (Q0 : (0 <= (p + q) / (1 - q))%R) by (apply Rmult_le_pos; [lra|left; apply Rinv_0_lt_compat; lra]).
      assert (J : (0 <= j <= 0.0000013 * (x / y))%R) by (unfold j; split; [apply Rmult_le_pos; lra|apply Rmult_le_compat_r; lra]).
      eapply er_weaken; [apply (er_div _ _ _ _ _ _ j Ex Ey)|].
      + rewrite Rabs_pos_eq by lra. nra.
      + rewrite !Rabs_pos_eq by lra. unfold j. right. field. split; [lra|]. split; [lra|]. intros C. nra.
      + rewrite Rabs_pos_eq by lra. lra.
      + rewrite Rabs_pos_eq by lra. lra.
      + rewrite Rabs_pos_eq by lra.
        assert (F : (u53 * (x / y + j) <= 0.0000000000000002 * (x / y * 1.0000013))%R) by (apply Rmult_le_compat; lra).
        assert (G : (((p + q) / (1 - q) + 0.00000000000000021) * (x / y) <= unit_error (n + m) * (x / y))%R) by (apply Rmult_le_compat_r; lra). unfold j in *. lra.
  Qed.
  Theorem c91_positive_partial : forall l ts (e : expr R) v n, means decimal_word l ts e -> clear ts -> moderate e v n -> (n <= 20)%nat -> few_digits 5 v ->
    exists n0 t, (forall n, (n0 <= n)%nat -> sess n [str l] = ([Success t], AtEof)) /\ decimal (chars t) v.
  Proof.
    intros l ts e v n M C H L F. destruct (moderate_error e v n H) as (B & Hn & E). assert (P6 : (/ 10 ^ 6 = 0.000001)%R) by (cbn; lra).
    assert (Hv : (0 < v)%R) by lra. apply (c91_error_partial l ts e v (unit_error n * v)); auto; [|lra].
    rewrite Rabs_pos_eq by lra. apply Rmult_le_compat_r; [lra|]. pose proof (unit_bounds n ltac:(lia)) as Bn. assert (P5 : (/ 10 ^ 5 = 0.00001)%R) by (cbn; lra).
    rewrite P5. unfold unit_error. nra.
  Qed.
End C91.
Print Assumptions c91_refuted.
Print Assumptions c91_error_partial.
Print Assumptions c91_accuracy_partial.
Print Assumptions c91_positive_partial.
(** The bounds are about the value of the expression. *)
Lemma c91_values : forall e v, (forall n, moderate e v n -> arithmetic e v) /\ (forall h, error e v h -> arithmetic e v).
Proof.
  intros e v. split; [intros n H|intros h H].
  - induction H as [c Hc|a b x y n m _ IH1 _ IH2 B|a b x y n m _ IH1 _ IH2 B|a b x y n m _ IH1 H2 IH2 B]; try (now constructor).
    constructor; auto. destruct (moderate_error b y m H2) as (K & _). assert (0 < / 10 ^ 6)%R by (apply Rinv_0_lt_compat, pow_lt; lra). lra.
  - assert (P : forall e v h, error e v h -> (0 <= h)%R).
    { clear. induction 1 as [c Hc|a b x y h k _ IH1 _ IH2 B|a b x y h k _ IH1 _ IH2 B|a b x y h k j _ IH1 _ IH2 T J B1 B2|a b x y h k j _ IH1 _ IH2 T J B1 B2|e v h h' _ IH L].
      - apply Rmult_le_pos; [left; apply Rinv_0_lt_compat, pow_lt; lra|]. destruct Hc as [->|Hc]; [lra|]. assert (0 < / 10 ^ 30)%R by (apply Rinv_0_lt_compat, pow_lt; lra). lra.
      - assert (0 < u53)%R by (apply Rinv_0_lt_compat, pow_lt; lra). pose proof (Rabs_pos (x + y)). nra.
      - assert (0 < u53)%R by (apply Rinv_0_lt_compat, pow_lt; lra). pose proof (Rabs_pos (x - y)). nra.
      - assert (0 < u53)%R by (apply Rinv_0_lt_compat, pow_lt; lra). pose proof (Rabs_pos (x * y)). pose proof (Rabs_pos x). pose proof (Rabs_pos y).
        assert (0 <= Rabs x * k)%R by (apply Rmult_le_pos; lra). assert (0 <= Rabs y * h)%R by (apply Rmult_le_pos; lra). assert (0 <= h * k)%R by (apply Rmult_le_pos; lra). nra.
      - assert (0 < u53)%R by (apply Rinv_0_lt_compat, pow_lt; lra). pose proof (Rabs_pos (x / y)). pose proof (Rabs_pos x). pose proof (Rabs_pos y).
        assert (0 <= Rabs x * k)%R by (apply Rmult_le_pos; lra). assert (0 <= Rabs y * h)%R by (apply Rmult_le_pos; lra).
        assert (0 <= (Rabs x * k + Rabs y * h) / (Rabs y * (Rabs y - k)))%R by (apply Rmult_le_pos; [lra|left; apply Rinv_0_lt_compat, Rmult_lt_0_compat; lra]). nra.
      - lra. }
    induction H as [c Hc|a b x y h k _ IH1 _ IH2 B|a b x y h k _ IH1 _ IH2 B|a b x y h k j _ IH1 _ IH2 T J B1 B2|a b x y h k j _ IH1 H2 IH2 T J B1 B2|e v h h' _ IH L]; try (now constructor); auto.
    constructor; auto. intros ->. rewrite Rabs_R0 in T. apply P in H2. lra.
Qed.

(** 1.5*2.1+0.3 is answered with 3.45. *)
Definition decimal_text : list ascii := text "1.5*2.1+0.3".
Definition point (a b : Z) : R := (IZR a + IZR b / 10 ^ 1)%R.
Definition decimal_tree : expr R := EAdd (EMul (EReal (point 1 5)) (EReal (point 2 1))) (EReal (point 0 3)).
Example c91_case : means decimal_word decimal_text (wd decimal_text) decimal_tree /\ clear (wd decimal_text) /\
  moderate decimal_tree (point 1 5 * point 2 1 + point 0 3) 3 /\ few_digits 5 (point 1 5 * point 2 1 + point 0 3) /\
  (forall pw lg pwx lgx, let N := double_ops pw lg pwx lgx in session fmt5 stof 20 ["1.5*2.1+0.3"; "0.1+0.2"; "1/8"; "2.5-0.3"] = ([Success "3.45"; Success "0.3"; Success "0.125"; Success "2.2"], AtEof)).
Proof.
  assert (W : forall t a b, cut_point (chars t) = ([a], Some [b]) -> all_digits [a; b] = true -> decimal_word t = Some (point (natural [a]) (natural [b]))).
  { intros t a b H D. unfold decimal_word. rewrite H. unfold all_digits in *. cbn [forallb] in *. rewrite andb_true_r in D. rewrite !andb_true_r, D. reflexivity. }
  assert (P38 : (1000000 <= 10 ^ 38)%R) by (replace 1000000%R with (10 ^ 6)%R by (cbn; lra); apply Rle_pow; [lra|lia]).
  assert (P6 : (/ 10 ^ 6 = 0.000001)%R) by (cbn; lra). assert (P1 : (10 ^ 1 = 10)%R) by (cbn; lra).
  split; [|split; [apply clear_intro; vm_compute; reflexivity|split; [|split]]].
  - assert (Lw : forall a b ts ps, digit a -> digit b -> lexemes ts ps -> lexemes (str [a; "."%char; b] :: ts) (str [a; "."%char; b] :: ps)).
    { intros a b ts ps Ha Hb H. apply (lm_word (str [a; "."%char; b]) ts [str [a; "."%char; b]] ps); [|discriminate| |exact H].
      - intros K. destruct K as (o & K). inversion K.
      - rewrite list_ascii_of_string_of_list_ascii. apply (cut_number [a; "."%char; b] [] []); [|exact I|constructor].
        split; [|split; [now exists a, ["."%char; b]|now exists [a; "."%char], b]]. intros c [<-|[<-|[<-|[]]]]; [now left|now right|now left]. }
    assert (Lx : lexemes (wd decimal_text) ["1.5"; "*"; "2.1"; "+"; "0.3"]).
    { change (wd decimal_text) with ["1.5"; "*"; "2.1"; "+"; "0.3"]. apply (Lw "1" "5")%char; [cbv; lia|cbv; lia|]. apply lm_punct; [now apply punct_b_spec|].
      apply (Lw "2" "1")%char; [cbv; lia|cbv; lia|]. apply lm_punct; [now apply punct_b_spec|]. apply (Lw "0" "3")%char; [cbv; lia|cbv; lia|constructor]. }
    exists ["1.5"; "*"; "2.1"; "+"; "0.3"], ["1.5"; "*"; "2.1"; "+"; "0.3"]. split; [apply wd_lexed|]. split; [exact Lx|]. split; [exact (multiplied_all ["1.5"; "*"; "2.1"; "+"; "0.3"])|].
    change (infix_of decimal_word "i" 1 ((["1.5"] ++ "*" :: ["2.1"]) ++ "+" :: ["0.3"]) decimal_tree).
    eapply ix_op; [constructor| |do 2 apply ix_up; apply ix_operand, opd_number; now apply (W _ "0" "3")%char].
    apply ix_up. eapply ix_op; [constructor|do 2 apply ix_up; apply ix_operand, opd_number; now apply (W _ "1" "5")%char|].
    apply ix_up. apply ix_operand, opd_number. now apply (W _ "2" "1")%char.
  - change 3%nat with (1 + 1 + 1)%nat. repeat constructor; unfold point; rewrite ?P1, ?P6; lra.
  - exists 345, (-2). split; [reflexivity|]. unfold point. rewrite P1. change (powerRZ 10 (-2)) with (/ (10 * (10 * 1)))%R. lra.
  - intros pw lg pwx lgx N. vm_compute. reflexivity.
Qed.
