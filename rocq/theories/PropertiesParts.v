(** Properties C72 and C99: integrals of logarithms, integration by parts and
    how Integrate can fail. *)
From Coq Require Import String Bool Arith ZArith QArith Lia List.
From Verif Require Import Base Num Expr Ghost Simplify Calculus Spec QNum MonadProofs Closure ZerosProofs PropertiesSimplify PropertiesSafety PropertiesSubst PropertiesIntegral PropertiesUnevaluated.
Import ListNotations.
Open Scope string_scope.

Section Logs.
  Context {num : Type} {N : NumOps num}.
  Notation E := (expr num).
  Lemma oks_eq (a b : E) c : equals a b = Some c -> oks (m_eq a b) c.
  Proof. unfold m_eq. intros ->. reflexivity. Qed.
  Lemma oks_some (m : M E) e : snd m = Ok e -> oks (some m) (Some e).
  Proof. intros H. unfold some. step; [exact H|reflexivity]. Qed.
  Lemma oks_val (m : M E) e : snd m = Ok e -> oks (m_value m) e.
  Proof. intros H. now apply (proj2 (oks_value _ _)). Qed.
  Lemma not_the_variable (a : E) x : a <> EVar x -> oks (if is_type TVar a then m_eq a (EVar x) else ret false) false.
  Proof.
    intros H. destruct a; try reflexivity. apply oks_eq. cbn. f_equal. apply String.eqb_neq. intros ->. now apply H.
  Qed.
End Logs.

(** ** C72, logarithms *)

(** ln a, when the derivative of a is no number: the same integral. *)
Theorem c72_logarithms : forall (num : Type) (N : NumOps num) n (a d : expr num) x,
  a <> EVar x -> snd (simp n false (EDeriv a (EVar x))) = Ok d -> (forall c, d <> EReal c) ->
  equals d (EReal (n_of_Z 0)) = Some false ->
  snd (integ (S n) (ELog EEuler a) (EVar x)) = Ok (Some (EInt (ELog EEuler a) (EVar x))).
Proof.
  intros num N n a d x Ha Hd Hc Hz. cbn [integ integ_step]. unfold int_log. step; [apply oks_eq; reflexivity|].
  unfold int_ln. step; [now apply not_the_variable|]. cbv iota. step; [apply oks_emit|]. step; [exact (oks_try_ok _ _ Hd)|]. cbv iota beta.
  step; [apply oks_eq; exact Hz|]. cbv iota. destruct d; try apply oks_unev. now destruct (Hc c).
Qed.
Print Assumptions c72_logarithms.

(** ln a, when the derivative of a is the number c other than 0: a*(ln a - 1)/c + C, simplified. *)
Theorem c72_logarithms_linear : forall (num : Type) (N : NumOps num) n (a r : expr num) c x,
  a <> EVar x -> snd (simp n false (EDeriv a (EVar x))) = Ok (EReal c) -> n_eqb c (n_of_Z 0) = false ->
  snd (simp n false (EAdd (EDiv (EMul a (ESub (ELog EEuler a) (EReal (n_of_Z 1)))) (EReal c)) (EVar "C"))) = Ok r ->
  snd (integ (S n) (ELog EEuler a) (EVar x)) = Ok (Some r).
Proof.
  intros num N n a r c x Ha Hd Hz Hr. cbn [integ integ_step]. unfold int_log. step; [apply oks_eq; reflexivity|].
  unfold int_ln. step; [now apply not_the_variable|]. cbv iota. step; [apply oks_emit|]. step; [exact (oks_try_ok _ _ Hd)|]. cbv iota beta.
  step; [apply oks_eq; cbn; rewrite Hz; reflexivity|]. cbv iota. cbn [is_type type_of ety_eqb]. apply oks_some, oks_val, Hr.
Qed.
Print Assumptions c72_logarithms_linear.

(** ln x: x*(ln x - 1) + C, simplified. *)
Theorem c72_logarithm_of_x : forall (num : Type) (N : NumOps num) n (r : expr num) x,
  snd (simp n false (EAdd (EMul (EVar x) (ESub (ELog EEuler (EVar x)) (EReal (n_of_Z 1)))) (EVar "C"))) = Ok r ->
  snd (integ (S n) (ELog EEuler (EVar x)) (EVar x)) = Ok (Some r).
Proof.
  intros num N n r x Hr. cbn [integ integ_step]. unfold int_log. step; [apply oks_eq; reflexivity|].
  unfold int_ln. step; [apply oks_eq; cbn; now rewrite String.eqb_refl|]. cbv iota. apply oks_some, oks_val, Hr.
Qed.
Print Assumptions c72_logarithm_of_x.

(** ln a, when a does not change with x: x * ln a + C, simplified. *)
Theorem c72_logarithms_constant : forall (num : Type) (N : NumOps num) n (a d r : expr num) x,
  a <> EVar x -> snd (simp n false (EDeriv a (EVar x))) = Ok d -> equals d (EReal (n_of_Z 0)) = Some true ->
  snd (simp n false (EAdd (EMul (EVar x) (ELog EEuler a)) (EVar "C"))) = Ok r ->
  snd (integ (S n) (ELog EEuler a) (EVar x)) = Ok (Some r).
Proof.
  intros num N n a d r x Ha Hd Hz Hr. cbn [integ integ_step]. unfold int_log. step; [apply oks_eq; reflexivity|].
  unfold int_ln. step; [now apply not_the_variable|]. cbv iota. step; [apply oks_emit|]. step; [exact (oks_try_ok _ _ Hd)|]. cbv iota beta.
  step; [apply oks_eq; exact Hz|]. cbv iota. apply oks_some, oks_val, Hr.
Qed.
Print Assumptions c72_logarithms_constant.

(** Another base that changes with x: the same integral. *)
Theorem c72_bases : forall (num : Type) (N : NumOps num) n (b a d : expr num) x,
  equals b EEuler = Some false -> equals (ELog EEuler a) (ELog EEuler b) = Some false ->
  snd (simp n false (EDeriv (ELog EEuler b) (EVar x))) = Ok d -> equals d (EReal (n_of_Z 0)) = Some false ->
  snd (integ (S n) (ELog b a) (EVar x)) = Ok (Some (EInt (ELog b a) (EVar x))).
Proof.
  intros num N n b a d x Hb Hq Hd Hz. cbn [integ integ_step]. unfold int_log. step; [apply oks_eq; exact Hb|]. cbv iota.
  unfold int_logb. cbv zeta. step; [apply oks_eq; exact Hq|]. step; [apply oks_emit|]. cbv iota. step; [apply oks_emit|].
  step; [apply oks_val, Hd|]. step; [apply oks_eq; exact Hz|]. cbv iota. apply oks_unev.
Qed.
Print Assumptions c72_bases.

(** Another base that does not change with x: the integral of ln a divided by ln b. *)
Theorem c72_bases_constant : forall (num : Type) (N : NumOps num) n (b a d i r : expr num) x,
  equals b EEuler = Some false -> equals (ELog EEuler a) (ELog EEuler b) = Some false ->
  snd (simp n false (EDeriv (ELog EEuler b) (EVar x))) = Ok d -> equals d (EReal (n_of_Z 0)) = Some true ->
  snd (simp n false (EInt (ELog EEuler a) (EVar x))) = Ok i ->
  (forall f k, i = EAdd f k -> snd (simp n false (EAdd (EDiv f (ELog EEuler b)) (EVar "C"))) = Ok r) ->
  ((forall f k, i <> EAdd f k) -> snd (simp n false (EDiv i (ELog EEuler b))) = Ok r) ->
  snd (integ (S n) (ELog b a) (EVar x)) = Ok (Some r).
Proof.
  intros num N n b a d i r x Hb Hq Hd Hz Hi H1 H2. cbn [integ integ_step]. unfold int_log. step; [apply oks_eq; exact Hb|]. cbv iota.
  unfold int_logb. cbv zeta. step; [apply oks_eq; exact Hq|]. step; [apply oks_emit|]. cbv iota. step; [apply oks_emit|].
  step; [apply oks_val, Hd|]. step; [apply oks_eq; exact Hz|]. cbv iota. step; [apply oks_val, Hi|].
  destruct i as [| | | | | | |o p q|]; try (apply oks_some, oks_val, H2; discriminate).
  destruct o; try (apply oks_some, oks_val, H2; discriminate).
  change (as_bin (rcast pAdd (EAdd p q))) with (Some (p, q)). cbv iota beta. step; [apply oks_emit|].
  apply oks_some, oks_val, (H1 p q eq_refl).
Qed.
Print Assumptions c72_bases_constant.

(** The logarithm of the base: x + C. *)
Theorem c72_own_base : forall (num : Type) (N : NumOps num) n (b a : expr num) x,
  equals b EEuler = Some false -> equals (ELog EEuler a) (ELog EEuler b) = Some true ->
  snd (integ (S n) (ELog b a) (EVar x)) = Ok (Some (EAdd (EVar x) (EVar "C"))).
Proof.
  intros num N n b a x Hb Hq. cbn [integ integ_step]. unfold int_log. step; [apply oks_eq; exact Hb|]. cbv iota.
  unfold int_logb. cbv zeta. step; [apply oks_eq; exact Hq|]. step; [apply oks_emit|]. reflexivity.
Qed.
Print Assumptions c72_own_base.

(** ln(x^2), ln(2*x), ln(y), log_y(z) over y, log_z(z). *)
Example c72_logarithms_case :
  snd (simp 30 false (EDeriv (EExp (qv "x") (qr 2)) (EVar "x"))) = Ok (EMul (qv "x") (qr 2)) /\
  snd (simp 30 false (EDeriv (EMul (qr 2) (qv "x")) (EVar "x"))) = Ok (EReal 2%Q) /\
  (exists r, snd (integ 30 (ELog EEuler (EMul (qr 2) (qv "x"))) (EVar "x")) = Ok (Some r)) /\
  snd (simp 30 false (EDeriv (qv "y") (EVar "x"))) = Ok (EReal 0%Q) /\
  equals (EReal 0%Q) (EReal (n_of_Z 0)) = Some true /\
  (exists r, snd (integ 30 (ELog EEuler (qv "x")) (EVar "x")) = Ok (Some r)) /\
  (exists d, snd (simp 30 false (EDeriv (ELog EEuler (qv "y")) (EVar "y"))) = Ok d /\ equals d (EReal (n_of_Z 0)) = Some false) /\
  equals (ELog EEuler (qv "z")) (ELog EEuler (qv "z")) = Some true /\
  (* log_2(x) *)
  equals (qr 2) EEuler = Some false /\ equals (ELog EEuler (qv "x")) (ELog EEuler (qr 2)) = Some false /\
  (exists d, snd (simp 30 false (EDeriv (ELog EEuler (qr 2)) (EVar "x"))) = Ok d /\ equals d (EReal (n_of_Z 0)) = Some true) /\
  (exists f, snd (simp 30 false (EInt (ELog EEuler (qv "x")) (EVar "x"))) = Ok (EAdd f (EVar "C"))) /\
  (exists r, snd (integ 31 (ELog (qr 2) (qv "x")) (EVar "x")) = Ok (Some r)).
Proof. repeat split; try (eexists; repeat split); try (vm_compute; reflexivity). Qed.

(** ** C99: Integrate answers *)
Definition C99_statement : Prop :=
  forall (num : Type) (N : NumOps num) n (e : expr num) x,
  match snd (integ n e (EVar x)) with Ok (Some _) | OutOfFuel => True | _ => False end.

(** Integration by parts: which factor is differentiated ([u]) and which is
    integrated ([dv]). *)
Inductive parts {num} : expr num -> expr num -> expr num -> expr num -> Prop :=
| parts_log b a dv : parts (ELog b a) dv (ELog b a) dv
| parts_other_log dv b a : (forall p q, dv <> ELog p q) -> parts dv (ELog b a) (ELog b a) dv
| parts_variable y dv : (forall p q, dv <> ELog p q) -> parts (EVar y) dv (EVar y) dv
| parts_power p q y : parts (EExp p q) (EVar y) (EVar y) (EExp p q).

Lemma parts_lipet {num} (a b u dv : expr num) : parts a b u dv -> lipet a b = (u, dv).
Proof.
  intros H. destruct H as [b a dv|dv b a H|y dv H|p q y].
  - unfold lipet. cbn [is_type type_of ety_eqb binop_eqb negb andb].
    replace (is_type TVar dv && false) with false by (destruct (is_type TVar dv); reflexivity).
    cbv iota. destruct (rcast _ _); reflexivity.
  - unfold lipet. assert (K : is_type (TBin OLog) dv = false).
    { destruct dv; try reflexivity. destruct o; try reflexivity. now destruct (H dv1 dv2). }
    rewrite K. cbn [is_type type_of ety_eqb binop_eqb negb andb].
    replace (is_type TVar dv && false) with false by (destruct (is_type TVar dv); reflexivity).
    cbv iota. destruct (rcast _ _); reflexivity.
  - unfold lipet. assert (K : is_type (TBin OLog) dv = false).
    { destruct dv; try reflexivity. destruct o; try reflexivity. now destruct (H dv1 dv2). }
    rewrite K. cbn [is_type type_of ety_eqb binop_eqb negb andb]. rewrite andb_false_r.
    destruct (rcast _ _); reflexivity.
  - unfold lipet. cbn. destruct p; try reflexivity; now destruct q.
Qed.

Section Parts.
  Context {num : Type} {N : NumOps num}.
  Notation E := (expr num).
  (** An antiderivative in the form the code takes apart: F + y. *)
  Definition sum_with_variable (i : E) : Prop := exists f y, i = EAdd f (EVar y) \/ i = EAdd (EVar y) f.
  Lemma no_sum_with_variable (i : E) : ~ sum_with_variable i -> as_bin (rcast (PBin OAdd PAny PVar) i) = None.
  Proof.
    intros H. destruct i as [| | | | | | |o p q|]; try reflexivity. destruct o; try reflexivity.
    destruct q; try (exfalso; apply H; eexists; eexists; left; reflexivity);
      destruct p; try reflexivity; exfalso; apply H; eexists; eexists; right; reflexivity.
  Qed.
  Lemma no_multiple (s : E) : (forall c t, s <> EMul (EReal c) t /\ s <> EMul t (EReal c)) -> as_bin (rcast pMulRE s) = None.
  Proof.
    intros H. destruct s as [| | | | | | |o p q|]; try reflexivity. destruct o; try reflexivity.
    destruct p; try (destruct (H c q) as [K _]; now destruct K); destruct q; try reflexivity;
      match goal with H : forall c t, EBin OMul ?u (EReal ?c0) <> _ /\ _ |- _ => destruct (H c0 u) as [_ K]; now destruct K
                    | H : forall c t, _ /\ EBin OMul ?u (EReal ?c0) <> _ |- _ => destruct (H c0 u) as [_ K]; now destruct K
                    | H : forall c t, EBin OMul ?u (EReal ?c0) <> _ /\ EBin OMul ?u (EReal ?c0) <> _ |- _ => destruct (H c0 u) as [_ K]; now destruct K end.
  Qed.
  Lemma snd_bind_ok {A B} (m : M A) (k : A -> M B) a : snd m = Ok a -> snd (bind m k) = snd (k a).
  Proof. destruct m as [t o]. cbn. intros ->. now destruct (k a). Qed.
End Parts.

(** ** C72, integration by parts *)

(** A number in front, and the rest. *)
Definition split_off {num} {N : NumOps num} n (e : expr num) (c : num) (t : expr num) : Prop :=
  (exists t', e = EMul (EReal c) t' /\ snd (simp n false t') = Ok t) \/
  ((forall c' t', e <> EMul (EReal c') t' /\ e <> EMul t' (EReal c')) /\ c = n_of_Z 1 /\ t = e).
Lemma oks_split {num} {N : NumOps num} n (e : expr num) c t : split_off n e c t -> oks (split_coef (simp n false) e) (EReal c, t).
Proof.
  intros [(t' & -> & H)|(H & -> & ->)]; unfold split_coef.
  - change (as_bin (rcast pMulRE (EMul (EReal c) t'))) with (Some (EReal c, t')). cbv iota beta. step; [apply oks_val, H|reflexivity].
  - rewrite (no_multiple e H). reflexivity.
Qed.

(** u*dv with V + C the integral of dv and du the derivative of u; k*w is V*du,
    k a number.  If k*w is u*dv again, the integral comes back; else the answer
    is u*V - k*(integral of w) + C, simplified. *)
Theorem c72_parts : forall (num : Type) (N : NumOps num) n (a b u dv s du V k w : expr num) y c1 c2 V' du' x q,
  parts a b u dv ->
  snd (simp n false (EMul a b)) = Ok s -> (forall c t, s <> EMul (EReal c) t /\ s <> EMul t (EReal c)) ->
  snd (integ n dv (EVar x)) = Ok (Some (EAdd V (EVar y))) ->
  snd (differentiate n u (EVar x)) = Ok du ->
  split_off n V c1 V' -> split_off n du c2 du' ->
  snd (simp n false (EMul (EReal c1) (EReal c2))) = Ok k -> snd (simp n false (EMul V' du')) = Ok w ->
  equals (EMul u dv) (EMul k w) = Some q ->
  (q = true -> snd (integ (S n) (EMul a b) (EVar x)) = Ok (Some (EInt (EMul u dv) (EVar x)))) /\
  (q = false -> forall i f r, snd (integ n w (EVar x)) = Ok (Some i) ->
    (exists g, i = EAdd f g) \/ ((forall g h, i <> EAdd g h) /\ f = i) ->
    snd (simp n false (EAdd (ESub (EMul u V) (EMul k f)) (EVar "C"))) = Ok r ->
    snd (integ (S n) (EMul a b) (EVar x)) = Ok (Some r)).
Proof.
  intros num N n a b u dv s du V k w y c1 c2 V' du' x q Hp Hs Hm Hi Hd H1 H2 Hk Hw Hq.
  assert (K : snd (integ (S n) (EMul a b) (EVar x)) =
    snd (if q then unev (EMul u dv) (EVar x) else
      flag (negb (imag_free w)) ;;;
      ip <- deref (integ n w (EVar x)) ;;
      flag (match as_bin (rcast pAdd ip) with Some (_, c) => negb (const_for (EVar x) c) | None => false end) ;;;
      let ip := match as_bin (rcast pAdd ip) with Some (f, _) => f | None => ip end in
      some (m_value (simp n false (EAdd (ESub (EMul u V) (EMul k ip)) C_))))).
  { change (integ (S n) (EMul a b) (EVar x)) with (int_mul (simp n false) (differentiate n) (integ n) a b (EVar x)). unfold int_mul.
    rewrite (snd_bind_ok _ _ (inl s)) by exact (oks_try_ok _ _ Hs). cbv iota beta. rewrite (no_multiple s Hm). unfold int_parts.
    rewrite (parts_lipet _ _ _ _ Hp). rewrite (snd_bind_ok _ _ tt) by apply oks_emit.
    rewrite (snd_bind_ok _ _ _ Hi). rewrite (snd_bind_ok _ _ _ Hd). cbv iota beta.
    change (as_bin (rcast (PBin OAdd PAny PVar) (EAdd V (EVar y)))) with (Some (V, EVar y : expr num)). cbv iota beta.
    rewrite (snd_bind_ok _ _ tt) by apply oks_emit.
    rewrite (snd_bind_ok _ _ (EReal c1, V')) by (now apply oks_split).
    rewrite (snd_bind_ok _ _ (EReal c2, du')) by (now apply oks_split). cbv iota beta.
    rewrite (snd_bind_ok _ _ k) by (apply oks_val, Hk). rewrite (snd_bind_ok _ _ w) by (apply oks_val, Hw).
    rewrite (snd_bind_ok _ _ q) by (apply oks_eq, Hq). reflexivity. }
  rewrite K. split.
  - intros ->. apply oks_unev.
  - intros -> i f r Hiw Hf Hr. change (snd ?m = Ok ?v) with (oks m v). step; [apply oks_emit|]. step; [exact (oks_deref _ _ Hiw)|].
    step; [apply oks_emit|]. cbv zeta. destruct Hf as [[g ->]|[Hf ->]].
    + change (as_bin (rcast pAdd (EAdd f g))) with (Some (f, g)). cbv iota beta. apply oks_some, oks_val, Hr.
    + replace (as_bin (rcast pAdd i)) with (@None (expr num * expr num)); [apply oks_some, oks_val, Hr|].
      destruct i as [| | | | | | |o p q|]; try reflexivity. destruct o; try reflexivity. now destruct (Hf p q).
Qed.
Print Assumptions c72_parts.

(** x*e^x, and x*y, which comes back, both with respect to x. *)
Example c72_parts_case :
  parts (qv "x") (EExp EEuler (qv "x")) (qv "x") (EExp EEuler (qv "x")) /\
  snd (simp 30 false (EMul (qv "x") (EExp EEuler (qv "x")))) = Ok (EMul (qv "x") (EExp EEuler (qv "x"))) /\
  snd (integ 30 (EExp EEuler (qv "x")) (qv "x")) = Ok (Some (EAdd (EExp EEuler (qv "x")) (EVar "C"))) /\
  snd (differentiate 30 (qv "x") (EVar "x")) = Ok (qr 1) /\
  split_off 30 (EExp EEuler (qv "x")) 1%Q (EExp EEuler (qv "x")) /\ split_off 30 (qr 1) 1%Q (qr 1) /\
  snd (simp 30 false (EMul (EReal 1%Q) (EReal 1%Q))) = Ok (qr 1) /\
  snd (simp 30 false (EMul (EExp EEuler (qv "x")) (qr 1))) = Ok (EExp EEuler (qv "x")) /\
  equals (EMul (qv "x") (EExp EEuler (qv "x"))) (EMul (qr 1) (EExp EEuler (qv "x"))) = Some false /\
  snd (integ 31 (EMul (qv "x") (EExp EEuler (qv "x"))) (qv "x")) =
    Ok (Some (EAdd (EMul (EAdd (qv "x") (EReal (-1)%Q)) (EExp EEuler (qv "x"))) (EVar "C"))) /\
  snd (integ 31 (EMul (EVar "x") (qv "y")) (qv "x")) = Ok (Some (EInt (EMul (EVar "x") (qv "y")) (qv "x"))).
Proof.
  split; [apply parts_variable; discriminate|].
  repeat match goal with
    | |- _ /\ _ => split
    | |- split_off _ _ _ _ => right; repeat split; discriminate
    end; vm_compute; reflexivity.
Qed.

(** ** C99, continued *)

(** A product whose factor [dv] has an integral that is not F + C (an integral
    that is handed back, for instance): a null pointer is dereferenced. *)
Theorem c99_parts_crash : forall (num : Type) (N : NumOps num) n (a b u dv s d : expr num) i x,
  parts a b u dv ->
  snd (simp n false (EMul a b)) = Ok s -> (forall c t, s <> EMul (EReal c) t /\ s <> EMul t (EReal c)) ->
  snd (integ n dv (EVar x)) = Ok i -> (forall i', i = Some i' -> ~ sum_with_variable i') ->
  snd (differentiate n u (EVar x)) = Ok d ->
  snd (integ (S n) (EMul a b) (EVar x)) = Undef NullDeref.
Proof.
  intros num N n a b u dv s d i x Hp Hs Hm Hi Hc Hd. cbn [integ integ_step is_var]. unfold int_mul.
  rewrite (snd_bind_ok _ _ (inl s)) by exact (oks_try_ok _ _ Hs). cbv iota beta. rewrite (no_multiple s Hm). unfold int_parts.
  rewrite (parts_lipet _ _ _ _ Hp). rewrite (snd_bind_ok _ _ tt) by apply oks_emit.
  rewrite (snd_bind_ok _ _ i) by exact Hi. rewrite (snd_bind_ok _ _ d) by exact Hd.
  destruct i as [i|]; [|reflexivity]. rewrite (no_sum_with_variable i); [reflexivity|]. now apply Hc.
Qed.
Print Assumptions c99_parts_crash.

(** x*y^2 with respect to x: the integral of y^2 is handed back. *)
Example c99_parts_case :
  parts (qv "x") (EExp (qv "y") (qr 2)) (qv "x") (EExp (qv "y") (qr 2)) /\
  snd (simp 30 false (EMul (qv "x") (EExp (qv "y") (qr 2)))) = Ok (EMul (qv "x") (EExp (qv "y") (qr 2))) /\
  snd (integ 30 (EExp (qv "y") (qr 2)) (EVar "x")) = Ok (Some (EInt (EExp (qv "y") (qr 2)) (EVar "x"))) /\
  snd (differentiate 30 (qv "x") (EVar "x")) = Ok (EReal 1%Q) /\
  snd (integ 31 (EMul (qv "x") (EExp (qv "y") (qr 2))) (EVar "x")) = Undef NullDeref.
Proof. split; [apply parts_variable; discriminate|]. repeat split; vm_compute; reflexivity. Qed.

Theorem c99_refuted : ~ C99_statement.
Proof.
  intros H. specialize (H Q Q_ops 31%nat (EMul (qv "x") (EExp (qv "y") (qr 2))) "x").
  now rewrite (proj2 (proj2 (proj2 (proj2 c99_parts_case)))) in H.
Qed.
Print Assumptions c99_refuted.

(** Sines have no integral: a null pointer is returned. *)
Theorem c99_sines : forall (num : Type) (N : NumOps num) n (a v : expr num),
  snd (integ (S n) (ESine a) v) = Ok None /\
  snd (integ (S (S n)) (EMag (ESine a)) v) = Undef NullDeref.
Proof. intros. split; reflexivity. Qed.
Print Assumptions c99_sines.

(** Expressions built from numbers, variables, e and Undefined by + - * / ^
    log, negation, Derivative and Integral. *)
Definition algebraic {num} : expr num -> Prop :=
  forall_sub (fun e => e <> EPi /\ e <> EImag /\ (forall r c d, e <> EMat r c d) /\
                       (forall a, e <> ESine a) /\ (forall a, e <> EMag a)).
Definition null_only : allowed :=
  {| thr := False; und := fun u => u = NullDeref; abt := True;
     bad := fun d => match d with SqrtNegative => true | _ => false end |}.
Lemma class_algebraic {num} {N : NumOps num} :
  (forall c, n_ltb c (n_of_Z 0) = true -> n_leb c (n_of_Z 0) = true) ->
  class null_only False (algebraic : expr num -> Prop).
Proof.
  intros HN. unfold algebraic. constructor; simpl; intros; repeat split; simpl; intros; try easy; try tauto; try (now right).
  all: exfalso; decompose [and] H; match goal with K : _ |- _ => now eapply K end.
Qed.
Lemma saw_sqrt l : existsb (bad null_only) l = true -> In SqrtNegative l.
Proof. intros K. apply existsb_exists in K. destruct K as (d & K1 & K2). destruct d; try discriminate. exact K1. Qed.

(** On these, Simplify and Integrate throw nothing; the one undefined
    behaviour is the null pointer above. *)
Theorem c99_simplify_partial : forall (num : Type) (N : NumOps num),
  (forall c, n_ltb c (n_of_Z 0) = true -> n_leb c (n_of_Z 0) = true) ->
  forall n prefer (e : expr num), algebraic e ->
  In SqrtNegative (fst (simp n prefer e)) \/
  match snd (simp n prefer e) with Ok r => algebraic r | Abort | OutOfFuel | Undef NullDeref => True | _ => False end.
Proof.
  intros num N HN n prefer e He.
  destruct (proj1 (knot_closed _ _ _ (class_algebraic HN) n) prefer e He) as [K|K]; [left; now apply saw_sqrt|right].
  cbn in K. destruct (snd (simp n prefer e)); try exact K; try (now destruct K). now rewrite K.
Qed.
Print Assumptions c99_simplify_partial.

(** No null pointer is returned for these. *)
Section Given.
  Context {num : Type} {N : NumOps num}.
  Notation E := (expr num).
  Definition given (m : M (option E)) : Prop := snd m = Ok None -> In SqrtNegative (fst m).
  Lemma given_bind {A} (m : M A) (k : A -> M (option E)) :
    (forall a, snd m = Ok a -> given (k a) \/ In SqrtNegative (fst m)) -> given (bind m k).
  Proof.
    unfold given. intros H. destruct m as [t [a|s|y| |u|]]; cbn; try discriminate.
    specialize (H a eq_refl). cbn in H. destruct (k a) as [t' o] eqn:K. cbn in *. intros ->. apply in_or_app.
    destruct H as [H|H]; [right; now apply H|now left].
  Qed.
  Lemma given_some (m : M E) : given (some m).
  Proof. apply given_bind. intros a _. left. discriminate. Qed.
  Lemma given_unev (e v : E) : given (unev e v).
  Proof. apply given_bind. intros a _. left. discriminate. Qed.
  Lemma given_give_up (e : E) : given (give_up e).
  Proof. apply given_bind. intros a _. left. discriminate. Qed.
  Lemma given_ret (e : E) : given (ret (Some e)).
  Proof. discriminate. Qed.
  Lemma given_null u : given (undef u).
  Proof. discriminate. Qed.
End Given.
Ltac given_all :=
  repeat (cbv zeta; match goal with
    | |- given (some _) => apply given_some
    | |- given (unev _ _) => apply given_unev
    | |- given (give_up _) => apply given_give_up
    | |- given (ret (Some _)) => apply given_ret
    | |- given (undef _) => apply given_null
    | |- given (bind _ _) => apply given_bind; intros ? _; left
    | |- given (match ?c with _ => _ end) => destruct c
    end).

Theorem c99_never_null_partial : forall (num : Type) (N : NumOps num),
  (forall c, n_ltb c (n_of_Z 0) = true -> n_leb c (n_of_Z 0) = true) ->
  forall n (e v : expr num), algebraic e -> algebraic v -> snd (integ n e v) = Ok None -> In SqrtNegative (fst (integ n e v)).
Proof.
  intros num N HN n. change (forall e v : expr num, algebraic e -> algebraic v -> given (integ n e v)).
  induction n as [|n IH]; intros e v He Hv; [discriminate|].
  change (given (integ_step (simp n false) (differentiate_with (diff n false)) (integ n) e v)).
  destruct e as [c| |y| | | |r c d|o a b|o a]; cbn [integ_step]; try (now apply IH); try (given_all; fail).
  - unfold int_real. given_all.
  - unfold int_var. given_all.
  - unfold int_euler. given_all.
  - destruct o; try (now apply IH).
    + destruct (is_var v); [unfold int_add|]; given_all.
    + destruct (is_var v); [|given_all]. unfold int_sub. apply given_bind. intros r Hr.
      destruct (c99_simplify_partial num N HN n false (ESub a b) He) as [K|K].
      { right. destruct (simp n false (ESub a b)) as [t [w|w|w| |w|]]; exact K. }
      left. destruct r as [s|s]; [|given_all].
      destruct (as_bin (rcast pSub s)) as [[m l]|]; [given_all|]. apply IH; [|exact Hv].
      destruct (simp n false (ESub a b)) as [t [w|w|w| |w|]]; cbn in Hr, K; try discriminate. now injection Hr as <-.
    + destruct (is_var v); [unfold int_mul, int_parts|]; given_all.
    + destruct (is_var v); [unfold int_div|]; given_all.
    + destruct v; try (given_all; fail). unfold int_exp. given_all.
    + unfold int_log, int_ln, int_logb. given_all.
  - destruct o; [given_all| |given_all]. exfalso. destruct He as [(_ & _ & _ & K & _) _]. now destruct (K a).
Qed.
Print Assumptions c99_never_null_partial.

Theorem c99_integrate_partial : forall (num : Type) (N : NumOps num),
  (forall c, n_ltb c (n_of_Z 0) = true -> n_leb c (n_of_Z 0) = true) ->
  forall n (e v : expr num), algebraic e -> algebraic v ->
  In SqrtNegative (fst (integ n e v)) \/
  match snd (integ n e v) with Ok (Some r) => algebraic r | Abort | OutOfFuel | Undef NullDeref => True | _ => False end.
Proof.
  intros num N HN n e v He Hv.
  assert (Hi : algebraic (EInt EUndef EUndef : expr num)).
  { cbn. repeat split; discriminate. }
  destruct (proj2 (proj2 (knot_closed _ _ _ (class_algebraic HN) n)) Hi e v He Hv) as [K|K]; [left; now apply saw_sqrt|].
  pose proof (c99_never_null_partial num N HN n e v He Hv) as K0.
  cbn in K. destruct (snd (integ n e v)) as [[r|]|s|y| |u|]; try (now right); try (now destruct K).
  - left. now apply K0.
  - right. now rewrite K.
Qed.
Print Assumptions c99_integrate_partial.

(** x*y^2 + ln(x) and x. *)
Example c99_case : algebraic (EAdd (EMul (qv "x") (EExp (qv "y") (qr 2))) (ELog EEuler (qv "x"))) /\ algebraic (qv "x").
Proof. cbn. repeat split; discriminate. Qed.
