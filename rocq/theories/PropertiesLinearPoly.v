(** Property C53 for systems of integer equations, and C32 for doubles. *)
From Coq Require Import String Bool Arith ZArith QArith Qreals Reals Lra Lia.
From Coquelicot Require Import Coquelicot.
From Coq Require Import List.
From Flocq Require Import Core BinarySingleNaN.
From Verif Require Import Base Num Expr Ghost Simplify Calculus FindZeros MatrixM Linear Spec QNum PropertiesSimplify SemProofs
  ZerosProofs PropertiesMatrix PropertiesLinear.
From Verif Require Import SpecPoly PowProofs TreeProofs MonadProofs FuelProofs PolyProofs PolySem DoubleNum PropertiesPoly.
Import ListNotations.
Open Scope string_scope.
Open Scope Z_scope.
Open Scope list_scope.

(** ** Doubles *)

Lemma double_signed pw lg pwx lgx : Signed (double_ops pw lg pwx lgx) B2R.
Proof.
  assert (O : forall z, d_ok z -> d_int (d_of z 0) z) by exact d_of_int.
  constructor; cbn [n0 n1 nm1 n_of_Z n_mul double_ops].
  - apply (O 0). unfold d_ok. lia.
  - apply (O 1). unfold d_ok. lia.
  - intros c. assert (M : d_int (d_of (-1) 0) (-1)) by (apply O; unfold d_ok; lia). destruct M as [Fm Rm].
    change (n_of_Z (-1)) with (d_of (-1) 0).
    pose proof (Bmult_correct 53 1024 d_prec d_max mode_NE (d_of (-1) 0) c) as K.
    replace (B2R (d_of (-1) 0) * B2R c)%R with (- B2R c)%R in K by (rewrite Rm; ring).
    rewrite round_generic in K; [|apply valid_rnd_round_mode|apply generic_format_opp, generic_format_B2R].
    rewrite Rabs_Ropp, Rlt_bool_true in K by apply abs_B2R_lt_emax. apply K.
Qed.

(** ConstructMatrices is exact for doubles: it only copies and negates. *)
Theorem c32_doubles : forall pw lg pwx lgx, let N := double_ops pw lg pwx lgx in
  forall (es : list (expr double)) (ls : list (list PropertiesLinear.term)) (vs : list string),
  List.Forall2 (equation B2R) es ls ->
  (forall l x, In l ls -> In x (names l) -> In x vs) -> (length vs <= length es)%nat ->
  exists s, construct_matrices es = ret s /\
    forall (rho : string -> R) (X : nat -> R), (forall x col, In (x, col) (l_vars s) -> X col = rho x) ->
    (solves B2R (length es) (l_A s) (l_b s) X <-> forall e, In e es -> ev B2R e rho (RtoC 0)).
Proof.
  intros pw lg pwx lgx N es ls vs F Hv Hl.
  destruct (c32_construct double N B2R (double_signed pw lg pwx lgx) es ls vs F Hv Hl) as (s & Hs & _ & _ & _ & _ & _ & _ & _ & _ & H).
  exists s. auto.
Qed.
Print Assumptions c32_doubles.

(** ** C53 *)

(** Only first powers occur. *)
Definition first_powers (ts : list monomial) : Prop := forall y k, In (Some (y, k)) (keys ts) -> k = 1.
(** [vs] are the variables of the system, after combining like terms. *)
Definition unknowns (tss : list (list monomial)) (vs : list string) : Prop :=
  NoDup vs /\ forall x, In x vs <-> exists ts, In ts tss /\ total (Some (x, 1)) ts <> 0.
(** The values of [rho] make all equations 0. *)
Definition satisfies {num} (toR : num -> R) (es : list (expr num)) (rho : string -> R) : Prop :=
  forall e, In e es -> ev toR e rho (RtoC 0).
(** [x] is a good answer to A x = b: if that has exactly one solution, it is [x]. *)
Definition good_answer {num} {N : NumOps num} (toR : num -> R) (n : nat) (A b x : list num) : Prop :=
  forall X, solves toR n A b X -> (forall Y, solves toR n A b Y -> forall j, (j < n)%nat -> Y j = X j) ->
  forall j, (j < n)%nat -> toR (nth j x n0) = X j.

Lemma Forall2_in_l {A B} (P : A -> B -> Prop) l m x : Forall2 P l m -> In x l -> exists y, In y m /\ P x y.
Proof. induction 1 as [|a b l m H F IH]; [intros []|]. intros [<-|K]; [exists b; split; [now left|exact H]|]. destruct (IH K) as (y & ? & ?). exists y. split; [now right|assumption]. Qed.
Lemma Forall2_in_r {A B} (P : A -> B -> Prop) l m y : Forall2 P l m -> In y m -> exists x, In x l /\ P x y.
Proof. induction 1 as [|a b l m H F IH]; [intros []|]. intros [<-|K]; [exists a; split; [now left|exact H]|]. destruct (IH K) as (x & ? & ?). exists x. split; [now right|assumption]. Qed.

Section Lin.
  Context {num : Type} {N : NumOps num} (lit : num -> Z -> Prop) (ok : Z -> Prop).
  Variable toR : num -> R.
  Hypothesis HR : forall c z, lit c z -> toR c = IZR z.

  (** Every polynomial with positive exponents has a value. *)
  Lemma ev_poly_conv rho prefer post e ts : poly lit ok prefer post e ts ->
    (forall p, In (Some p) (keys ts) -> kok rho p) -> ev toR e rho (csum rho ts).
  Proof.
    intros H. induction H as [post e t Ht|e ts He IHe|post a b ta tb Ha IHa Hb IHb Hap|post a b ta tb Ha IHa Hb IHb Hap Hsh|a ta Ha IHa|c z a ta Hc Z0 Hz Hm Ha IHa];
      intros K; rewrite ?keys_app, ?keys_scale in K; rewrite ?csum_app, ?csum_scale.
    - apply (ev_plain lit toR HR rho post); [now constructor|exact K].
    - now apply IHe.
    - cbn [ev]. exists (csum rho ta), (csum rho tb).
      split; [apply IHa|split; [apply IHb|reflexivity]]; intros p Hp; apply K, in_or_app; auto.
    - cbn [ev]. exists (csum rho ta), (csum rho tb).
      split; [apply IHa|split; [apply IHb|]]; try (intros p Hp; apply K, in_or_app; auto). rewrite RtoC_m1. ring.
    - cbn [ev]. exists (csum rho ta). split; [now apply IHa|]. rewrite RtoC_m1. ring.
    - cbn [ev]. exists (RtoC (IZR z)), (csum rho ta). rewrite <- (HR _ _ Hc). split; [reflexivity|]. split; [now apply IHa|reflexivity].
  Qed.

  Definition lterm (t : monomial) : PropertiesLinear.term :=
    match fst t with None => inl (IZR (snd t)) | Some (x, _) => inr (x, IZR (snd t)) end.

  Lemma neat_is_term e t : neat lit e t -> (forall y k, fst t = Some (y, k) -> k = 1) -> is_term toR e (lterm t).
  Proof.
    intros [c z Hc _|e' x k Hp|c z e' x k Hc _ _ Hp] H; unfold lterm; cbn [fst snd].
    - rewrite <- (HR _ _ Hc). constructor.
    - destruct Hp as [x|x c k Hc K0 K1]; [constructor|]. now destruct (K1 (H _ _ eq_refl)).
    - rewrite <- (HR _ _ Hc). destruct Hp as [x|x c' k Hc' K0 K1]; [constructor|]. now destruct (K1 (H _ _ eq_refl)).
  Qed.

  Lemma tree_linear d l r tl : tree_over OAdd d l r -> Forall2 (neat lit) l tl -> first_powers tl -> linear toR r (map lterm tl).
  Proof.
    intros T. revert tl. induction T as [d e|d l1 l2 a b T1 IH1 T2 IH2]; intros tl F P.
    - inversion F as [|? t ? l' Ht Hn]; subst. inversion Hn; subst. cbn. constructor. apply neat_is_term; [exact Ht|].
      intros y k Hk. apply (P y). left. exact Hk.
    - apply Forall2_app_inv_l in F. destruct F as (t1 & t2 & F1 & F2 & ->). rewrite map_app. unfold first_powers in P. rewrite keys_app in P.
      constructor; [apply IH1|apply IH2]; auto; intros y k Hk; apply (P y), in_or_app; auto.
  Qed.

  Lemma names_lterm tl x : first_powers tl -> In x (names (map lterm tl)) -> In (Some (x, 1)) (keys tl).
  Proof.
    intros P H. unfold names in H. apply in_flat_map in H. destruct H as (t & Ht & Hx). apply in_map_iff in Ht.
    destruct Ht as ([[[y k]|] z] & <- & Hin); unfold lterm in Hx; cbn [fst snd] in Hx; [|destruct Hx].
    destruct Hx as [<-|[]]. apply (in_map fst) in Hin. cbn [fst] in Hin. now rewrite (P y k Hin) in Hin.
  Qed.
  Lemma names_in tl x z k : In (Some (x, k), z) tl -> In x (names (map lterm tl)).
  Proof.
    intros H. unfold names. apply in_flat_map. exists (lterm (Some (x, k), z)). split; [now apply in_map|now left].
  Qed.
  Lemma names_nodup tl : first_powers tl -> NoDup (keys tl) -> NoDup (names (map lterm tl)) /\ (length (consts (map lterm tl)) <= 1)%nat /\
    (~ In None (keys tl) -> consts (map lterm tl) = []).
  Proof.
    intros P D. induction tl as [|[k z] tl IH]; [cbn; repeat split; [constructor|lia]|].
    cbn [keys map fst] in D. inversion D as [|? ? Hk Dt]; subst. assert (P' : first_powers tl) by (intros y j Hj; apply (P y); now right).
    destruct (IH P' Dt) as (A & B & C). destruct k as [[x k]|].
    - split; [|split].
      + cbn. constructor; [|exact A]. intros K. apply Hk. apply names_lterm in K; [|exact P'].
        assert (k = 1) by (apply (P x); now left). now subst k.
      + exact B.
      + intros K. apply C. intros K'. apply K. now right.
    - split; [exact A|]. split.
      + change (length (IZR z :: consts (map lterm tl)) <= 1)%nat. rewrite C; [cbn; lia|exact Hk].
      + intros K. destruct K. now left.
  Qed.

  Lemma acoef_lterm tl x : first_powers tl -> acoef (map lterm tl) x = IZR (total (Some (x, 1)) tl).
  Proof.
    intros P. induction tl as [|[k z] tl IH]; [reflexivity|]. cbn [map]. rewrite acoef_cons.
    assert (P' : first_powers tl) by (intros y j Hj; apply (P y); now right).
    rewrite (IH P'). cbn [total fold_right fst snd]. fold (total (Some (x, 1)) tl). rewrite plus_IZR. f_equal.
    unfold lterm. destruct k as [[y k]|]; cbn [fst snd key_eqb]; [|reflexivity].
    rewrite (P y k) by (now left). destruct (String.eqb x y); reflexivity.
  Qed.
  Lemma konst_lterm tl : konst (map lterm tl) = IZR (total None tl).
  Proof.
    induction tl as [|[k z] tl IH]; [reflexivity|]. cbn [map]. rewrite konst_cons, IH.
    cbn [total fold_right fst snd]. fold (total None tl). rewrite plus_IZR. f_equal.
    unfold lterm. destruct k as [[y k]|]; reflexivity.
  Qed.

  Lemma combined_equation l r ts : tree_over OAdd (Nat.log2_up (length l)) l r -> combined lit l ts -> two_left ts -> first_powers ts ->
    exists ls, equation toR r ls /\ (forall x, In x (names ls) <-> total (Some (x, 1)) ts <> 0) /\
      (forall x, acoef ls x = IZR (total (Some (x, 1)) ts)) /\ konst ls = IZR (total None ts).
  Proof.
    intros T (tl & F & D & Tt) H2 P.
    assert (Nz : forall k z, In (k, z) tl -> z <> 0 /\ total k ts = z).
    { intros k z H. rewrite <- Tt, (total_nodup k z tl D H). split; [|reflexivity].
      destruct (Forall2_in_r _ _ _ _ F H) as (e & _ & Ne). exact (neat_nonzero _ _ _ Ne). }
    assert (Pt : first_powers tl).
    { intros y k H. apply in_map_iff in H. destruct H as ([k' z] & Hk & H). cbn in Hk. subst k'.
      apply (P y), total_in. destruct (Nz _ _ H) as [Z0 ->]. exact Z0. }
    exists (map lterm tl). destruct (names_nodup tl Pt D) as (A & B & _).
    split; [split; [|split; [|split]]|split; [|split]].
    - eapply tree_linear; eauto.
    - destruct T as [d e|d l1 l2 a b T1 T2]; [|eauto]. exfalso. inversion F as [|? t ? l' Ht Hn]; subst. inversion Hn; subst.
      destruct H2 as (k & j & Hkj & Hk & Hj). rewrite <- Tt in Hk, Hj. apply total_in in Hk, Hj. destruct Hk as [Hk|[]], Hj as [Hj|[]]. congruence.
    - exact A.
    - exact B.
    - intros x. split.
      + intros H. apply names_lterm in H; [|exact Pt]. apply in_map_iff in H. destruct H as ([k z] & Hk & H). cbn in Hk. subst k.
        destruct (Nz _ _ H) as [Z0 ->]. exact Z0.
      + intros H. rewrite <- Tt in H. apply total_in, in_map_iff in H. destruct H as ([k z] & Hk & H). cbn in Hk. subst k.
        eapply names_in; eauto.
    - intros x. now rewrite (acoef_lterm tl x Pt), Tt.
    - now rewrite konst_lterm, Tt.
  Qed.
End Lin.

(** [transcribed toR tss cols A b]: row i of A and b holds the coefficients of
    equation i, in the columns [cols], and minus its constant. *)
Definition transcribed {num} {N : NumOps num} (toR : num -> R) (tss : list (list monomial)) (cols : list (string * nat)) (A b : list num) : Prop :=
  let n := length tss in
  length A = (n * n)%nat /\ length b = n /\
  forall i ts, nth_error tss i = Some ts ->
    (forall x j, In (x, j) cols -> toR (nth (i * n + j) A n0) = IZR (total (Some (x, 1)) ts)) /\
    toR (nth i b n0) = IZR (- total None ts).

(** Every system of n integer equations in n unknowns, each in the class of
    C58 with two or more terms left: SolveLinearSystems hands the matrix of
    the coefficients to Eigen and returns its answer under the names of the
    variables.  If Eigen's answer is good, then SolveLinearSystems finds the
    solution of the equations whenever there is exactly one.
    Missing (compare C33): equations with fewer terms and systems with more or
    fewer unknowns. *)
Theorem c53_integers_partial : forall (num : Type) (N : NumOps num) lit ok, IntLits N lit ok ->
  forall toR, Signed N toR -> (forall c z, lit c z -> toR c = IZR z) ->
  forall prefer (es : list (expr num)) tss vs,
  List.Forall2 (fun e ts => (exists post, poly lit ok prefer post e ts) /\ two_left ts /\ first_powers ts /\ ok (weight ts)) es tss ->
  unknowns tss vs -> length vs = length es ->
  exists cols A b,
    (forall solve, let vals := map (fun xj => (fst xj, nth (snd xj) (solve (length es) A b) n0)) cols in
      (exists n0, forall n, (n0 <= n)%nat -> snd (solve_linear_systems (simp n prefer) solve es) = Ok vals) /\
      (good_answer toR (length es) A b (solve (length es) A b) ->
       forall rho, satisfies toR es rho -> (forall rho', satisfies toR es rho' -> forall x, In x vs -> rho' x = rho x) ->
       forall x c, In (x, c) vals -> toR c = rho x)) /\
    NoDup (map fst cols) /\ (forall x, In x (map fst cols) <-> In x vs) /\
    NoDup (map snd cols) /\ (forall j, In j (map snd cols) <-> (j < length es)%nat) /\
    transcribed toR tss cols A b.
Proof.
  intros num N lit ok IL toR SG HR prefer es tss vs F (Dv & Uv) Lv.
  (* the simplified equations *)
  assert (Q : exists es' ls, (exists n0, forall n, (n0 <= n)%nat -> Forall2 (fun e e' => simp n prefer e = ([], Ok e')) es es') /\
    Forall2 (equation toR) es' ls /\
    Forall2 (fun ts l => (forall x, In x (names l) <-> total (Some (x, 1)) ts <> 0) /\
       (forall x, acoef l x = IZR (total (Some (x, 1)) ts)) /\ konst l = IZR (total None ts)) tss ls /\
    Forall2 (fun e e' => forall rho, ev toR e rho (RtoC 0) <-> ev toR e' rho (RtoC 0)) es es').
  { clear -F HR IL. induction F as [|e ts es tss ((post & He) & H2 & P & W) F IH].
    - exists [], []. split; [exists 0%nat; constructor|]. repeat constructor.
    - destruct IH as (es' & ls & (n1 & A1) & A2 & A3 & A4).
      destruct (c58_like_terms_partial num N lit ok IL prefer post e ts He W H2) as (l & r & (n2 & Y) & T & C).
      destruct (combined_equation lit toR HR l r ts T C H2 P) as (l1 & E & Nm).
      destruct (c58_value num N lit ok IL toR HR prefer post e ts He W) as (r' & (n3 & Y') & V).
      assert (r' = r). { specialize (Y (n2 + n3)%nat ltac:(lia)). specialize (Y' (n2 + n3)%nat ltac:(lia)). congruence. } subst r'.
      exists (r :: es'), (l1 :: ls). split; [|split; [|split]].
      + exists (n1 + n2)%nat. intros n L. constructor; [apply Y; lia|apply A1; lia].
      + now constructor.
      + now constructor.
      + constructor; [|exact A4]. intros rho. split; [apply V|]. intros Hr.
        assert (K : ev toR e rho (csum rho ts)).
        { apply (ev_poly_conv lit ok toR HR rho prefer post e ts He). intros [y k] Hy. specialize (P y k Hy). subst k.
          split; cbn; [lia|right; lia]. }
        rewrite (ev_fun toR _ _ _ _ Hr (V _ _ K)). exact K. }
  destruct Q as (es' & ls & (nS & Ys) & FE & FN & FV).
  assert (Len : length es' = length es) by (clear -FV; induction FV; cbn; congruence).
  assert (Lts : length tss = length es) by (clear -F; induction F; cbn; congruence).
  assert (Hn : forall l x, In l ls -> In x (names l) -> In x vs).
  { intros l x Hl Hx. apply Uv. destruct (Forall2_in_r _ _ _ _ FN Hl) as (ts & Hts & K & _). exists ts. split; [exact Hts|now apply K]. }
  destruct (c32_construct num N toR SG es' ls vs FE Hn ltac:(lia)) as (s & Hs & LA & Lb & ND1 & ND2 & Cov & Col & HA & Hb & Iff).
  cbn zeta in *. set (m := length es') in *.
  assert (Names : forall x, In x vs <-> In x (map fst (l_vars s))).
  { intros x. split.
    - intros Hx. apply Uv in Hx. destruct Hx as (ts & Hts & K). destruct (Forall2_in_l _ _ _ _ FN Hts) as (l & Hl & Kl & _).
      apply Kl in K. destruct (Cov l x Hl K) as (col & Hc). now apply (in_map fst) in Hc.
    - intros Hx. apply in_map_iff in Hx. destruct Hx as ([y col] & <- & Hx). exact (proj2 (Col y col Hx)). }
  assert (Full : forall j, (j < m)%nat -> In j (map snd (l_vars s))).
  { assert (L1 : (m <= length (map snd (l_vars s)))%nat).
    { pose proof (NoDup_incl_length Dv (fun x Hx => proj1 (Names x) Hx)) as L0. rewrite map_length in *. unfold m. lia. }
    intros j Hj.
    apply (NoDup_length_incl (l := map snd (l_vars s)) (l' := seq 0 m)); [exact ND2|now rewrite seq_length| |apply in_seq; lia].
    intros k Hk. apply in_map_iff in Hk. destruct Hk as ([y col] & <- & Hk). apply in_seq. pose proof (proj1 (Col y col Hk)). cbn. lia. }
  exists (l_vars s), (l_A s), (l_b s). rewrite <- Len. fold m.
  split; [intros solve; cbn zeta; split|split; [exact ND1|split; [|split; [exact ND2|split]]]].
  - exists nS. intros n L. specialize (Ys n L). unfold solve_linear_systems.
    assert (Hm : snd (mapM (fun e => m_value (simp n prefer e)) es) = Ok es').
    { clear -Ys. induction Ys as [|e e' es es' H Fs IH]; [reflexivity|]. cbn [mapM].
      assert (H1 : snd (m_value (simp n prefer e)) = Ok e') by now rewrite H.
      rewrite (snd_bind _ _ _ H1), (snd_bind _ _ _ IH). reflexivity. }
    rewrite (snd_bind _ _ _ Hm). assert (Hs' : snd (construct_matrices es') = Ok s) by now rewrite Hs.
    rewrite (snd_bind _ _ _ Hs'). reflexivity.
  - intros GS rho Hrho Uniq x c Hin. apply in_map_iff in Hin. destruct Hin as ([x' j] & Heq & Hin). cbn in Heq. injection Heq as -> <-.
    assert (Sat : forall rho', satisfies toR es rho' <-> forall e', In e' es' -> ev toR e' rho' (RtoC 0)).
    { intros rho'. split; intros H.
      - intros e' He'. destruct (Forall2_in_r _ _ _ _ FV He') as (e & He & K). apply K. now apply H.
      - intros e He. destruct (Forall2_in_l _ _ _ _ FV He) as (e' & He' & K). apply K. now apply H. }
    (* vectors and assignments *)
    set (vec := fun (f : string -> R) k => match find (fun kv => Nat.eqb (snd kv) k) (l_vars s) with Some (y, _) => f y | None => 0%R end).
    assert (Vec : forall f y k, In (y, k) (l_vars s) -> vec f k = f y).
    { intros f y k Hy. unfold vec. destruct (find (fun kv => Nat.eqb (snd kv) k) (l_vars s)) as [[z k']|] eqn:Fd.
      - apply find_some in Fd. cbn in Fd. destruct Fd as [F1 F2]. apply Nat.eqb_eq in F2. subst k'.
        clear -ND2 F1 Hy. revert ND2 F1 Hy. generalize (l_vars s) as v. induction v as [|[u w] v IH]; cbn; [tauto|].
        intros ND [F1|F1] [Hy|Hy]; inversion ND; subst; auto.
        + congruence.
        + injection F1 as <- <-. apply (in_map snd) in Hy. tauto.
        + injection Hy as <- <-. apply (in_map snd) in F1. tauto.
      - apply (find_none _ _ Fd) in Hy. cbn in Hy. rewrite Nat.eqb_refl in Hy. discriminate. }
    set (asg := fun (X : nat -> R) y => match map_find y (l_vars s) with Some k => X k | None => 0%R end).
    assert (Asg : forall X y k, In (y, k) (l_vars s) -> asg X y = X k).
    { intros X y k Hy. unfold asg. destruct (map_find y (l_vars s)) as [k'|] eqn:Fd.
      - apply map_find_some in Fd. f_equal. clear -ND1 Fd Hy. revert ND1 Fd Hy. generalize (l_vars s) as v. induction v as [|[u w] v IH]; cbn; [tauto|].
        intros ND [F1|F1] [Hy|Hy]; inversion ND; subst; auto.
        + congruence.
        + injection F1 as <- <-. apply (in_map fst) in Hy. tauto.
        + injection Hy as <- <-. apply (in_map fst) in F1. tauto.
      - apply map_find_none in Fd. apply (in_map fst) in Hy. tauto. }
    rewrite <- (Vec rho x j Hin). apply GS; [| |exact (proj1 (Col x j Hin))].
    + apply (proj2 (Iff rho (vec rho) (Vec rho))). now apply Sat.
    + intros Y HY k Hk. pose proof (Full k Hk) as Fk. apply in_map_iff in Fk. destruct Fk as ([y k'] & Ek & Hy). cbn in Ek. subst k'.
      rewrite (Vec rho y k Hy), <- (Asg Y y k Hy).
      apply Uniq.
      * apply Sat. apply (proj1 (Iff (asg Y) Y (fun u w Hu => eq_sym (Asg Y u w Hu)))). exact HY.
      * apply Names. now apply (in_map fst) in Hy.
  - intros x. symmetry. apply Names.
  - intros j. split; [|apply Full]. intros Hj. apply in_map_iff in Hj. destruct Hj as ([y j'] & <- & Hj). exact (proj1 (Col y j' Hj)).
  - unfold transcribed. cbn zeta. rewrite Lts, <- Len. fold m. split; [exact LA|]. split; [exact Lb|]. intros i ts Hi.
    assert (Hl : exists l, nth_error ls i = Some l /\ (forall x, acoef l x = IZR (total (Some (x, 1)) ts)) /\ konst l = IZR (total None ts)).
    { clear -FN Hi. revert i Hi. induction FN as [|t l tss ls H FN IH]; intros [|i] Hi; try discriminate; cbn in *.
      - injection Hi as ->. exists l. split; [reflexivity|apply H].
      - now apply IH. }
    destruct Hl as (l & Hl & Ha & Hk). assert (Him : (i < m)%nat).
    { assert (K : (i < length tss)%nat) by (apply nth_error_Some; congruence). unfold m. lia. }
    split.
    + intros x j Hj. rewrite (HA i x j Him Hj), (nth_error_nth _ _ _ Hl). apply Ha.
    + rewrite (Hb i Him), (nth_error_nth _ _ _ Hl), Hk, opp_IZR. reflexivity.
Qed.
Print Assumptions c53_integers_partial.

(** The same for doubles: the matrix holds the coefficients exactly. *)
Theorem c53_doubles : forall pw lg pwx lgx, let N := double_ops pw lg pwx lgx in
  forall prefer (es : list (expr double)) tss vs,
  List.Forall2 (fun e ts => (exists post, poly d_int d_ok prefer post e ts) /\ two_left ts /\ first_powers ts /\ weight ts <= 2 ^ 53) es tss ->
  unknowns tss vs -> length vs = length es ->
  exists cols A b,
    (forall solve, exists m, forall n, (m <= n)%nat -> snd (solve_linear_systems (simp n prefer) solve es) =
       Ok (map (fun xj => (fst xj, nth (snd xj) (solve (length es) A b) n0)) cols)) /\
    NoDup (map fst cols) /\ (forall x, In x (map fst cols) <-> In x vs) /\
    NoDup (map snd cols) /\ (forall j, In j (map snd cols) <-> (j < length es)%nat) /\
    transcribed B2R tss cols A b.
Proof.
  intros pw lg pwx lgx N prefer es tss vs F U L.
  pose proof (double_ints pw lg pwx lgx) as IL. fold N in IL.
  destruct (c53_integers_partial double N d_int d_ok IL B2R (double_signed pw lg pwx lgx) (fun c z H => proj2 H) prefer es tss vs) as (cols & A & b & H & T).
  - clear -F. induction F as [|e ts es tss (H1 & H2 & H3 & H4) F IH]; constructor; [|exact IH].
    repeat split; try assumption. unfold d_ok. pose proof (weight_nonneg ts). lia.
  - exact U.
  - exact L.
  - exists cols, A, b. split; [|exact T]. intros solve. exact (proj1 (H solve)).
Qed.
Print Assumptions c53_doubles.

(** 2*(x + y) - (x + 4) and (x - y) + 1, in doubles. *)
Definition d_system : list (expr double) :=
  [ESub (EMul (dr 2) (EAdd (EVar "x") (EVar "y"))) (EAdd (EVar "x") (dr 4)); EAdd (ESub (EVar "x") (EVar "y")) (dr 1)].
Definition d_system_terms : list (list monomial) :=
  [[(Some ("x", 1), 2); (Some ("y", 1), 2); (Some ("x", 1), -1); (None, -4)]; [(Some ("x", 1), 1); (Some ("y", 1), -1); (None, 1)]].
Example c53_integers_case :
  List.Forall2 (fun e ts => (exists post, poly d_int d_ok true post e ts) /\ two_left ts /\ first_powers ts /\ weight ts <= 2 ^ 53) d_system d_system_terms /\
  unknowns d_system_terms ["x"; "y"].
Proof.
  assert (V : forall post x, poly d_int d_ok true post (EVar x) [(Some (x, 1), 1)]) by (intros post x; apply po_term, tm_power, pw_var).
  split.
  - constructor; [|constructor; [|constructor]].
    + split; [exists false|split; [|split]].
      * apply (po_sub _ _ _ _ _ _ (scale 2 ([(Some ("x", 1), 1)] ++ [(Some ("y", 1), 1)])) ([(Some ("x", 1), 1)] ++ [(None, 4)])); [| | |now left].
        -- apply po_scale; [now apply d_lit|discriminate|unfold d_ok; simpl; lia|now left|]. apply po_add; [apply V|apply V|now left].
        -- apply po_add; [apply V|apply po_term, tm_const; now apply d_lit|now left].
        -- right. right. exists ("y", 1). split; [discriminate|]. intros [H|[H|[]]]; discriminate.
      * exists None, (Some ("y", 1)). repeat split; discriminate.
      * intros y k H. cbn in H. repeat (destruct H as [H|H]; [now inversion H|]). destruct H.
      * vm_compute. discriminate.
    + split; [exists false|split; [|split]].
      * apply (po_add _ _ _ _ _ _ ([(Some ("x", 1), 1)] ++ scale (-1) [(Some ("y", 1), 1)]) [(None, 1)]); [| |now right; left].
        -- apply po_sub; [apply V|apply V|now left|now left].
        -- apply po_term, tm_const. now apply d_lit.
      * exists None, (Some ("y", 1)). repeat split; discriminate.
      * intros y k H. cbn in H. repeat (destruct H as [H|H]; [now inversion H|]). destruct H.
      * vm_compute. discriminate.
  - split; [repeat constructor; cbn; intuition discriminate|]. intros x. split.
    + intros [<-|[<-|[]]]; (eexists; split; [left; reflexivity|discriminate]).
    + intros (ts & [<-|[<-|[]]] & H); apply total_in in H; cbn in H;
        (repeat (destruct H as [H|H]; [inversion H; subst; cbn; tauto|])); destruct H.
Qed.

(** Its matrix and right-hand side, and a good answer for them. *)
Example c53_answer_case : good_answer Q2R 2 [1; 2; 1; -1]%Q [4; -1]%Q [2 # 3; 5 # 3]%Q.
Proof.
  intros X H _ j Hj. pose proof (H 0%nat ltac:(lia)) as H0. pose proof (H 1%nat ltac:(lia)) as H1. unfold Q2R in *. cbn in *.
  destruct j as [|[|j]]; cbn; lra || lia.
Qed.

(** The same for all systems of n linear equations in n unknowns.  False of the
    code: without the option to distribute, the product in 2*(x + y) + z - 6
    is neither a number, a variable nor a number times a variable, and is
    silently left out of the matrix. *)
Definition C53_statement : Prop :=
  forall (num : Type) (N : NumOps num) lit ok, IntLits N lit ok -> (forall z, ok z) ->
  forall toR, Exact N toR -> (forall c z, lit c z -> toR c = IZR z) ->
  forall (es : list (expr num)) tss vs,
  List.Forall2 (fun e ts => polynomial lit e ts /\ first_powers ts) es tss ->
  unknowns tss vs -> length vs = length es ->
  exists cols A b,
    forall solve, let vals := map (fun xj => (fst xj, nth (snd xj) (solve (length es) A b) n0)) cols in
      (exists n0, forall n, (n0 <= n)%nat -> snd (solve_linear_systems (simp n false) solve es) = Ok vals) /\
      (good_answer toR (length es) A b (solve (length es) A b) ->
       forall rho, satisfies toR es rho -> (forall rho', satisfies toR es rho' -> forall x, In x vs -> rho' x = rho x) ->
       forall x c, In (x, c) vals -> toR c = rho x).

(** x - 1, y - 1 and 2*(x + y) + z - 6, which is 0 for x = 1, y = 1, z = 2. *)
Definition lost_system : list (expr Q) :=
  [EAdd (qv "x") (qr (-1)); EAdd (qv "y") (qr (-1));
   EAdd (EAdd (EMul (qr 2) (EAdd (qv "x") (qv "y"))) (qv "z")) (qr (-6))].
Definition lost_terms : list (list monomial) :=
  [[(Some ("x", 1), 1); (None, -1)]; [(Some ("y", 1), 1); (None, -1)];
   [(Some ("x", 1), 2); (Some ("y", 1), 2); (Some ("z", 1), 1); (None, -6)]].
Definition lost_A : list Q := [1; 0; 0; 0; 1; 0; 0; 0; 1]%Q.
Definition lost_b : list Q := [1; 1; 6]%Q.
Definition lost_answer : list Q := [1; 1; 6]%Q.
Lemma Q_dec (p q : Q) : {p = q} + {p <> q}.
Proof. decide equality; [apply Pos.eq_dec|apply Z.eq_dec]. Defined.
Definition lost_solve (_ : nat) (A b : list Q) : list Q :=
  if list_eq_dec Q_dec A lost_A then if list_eq_dec Q_dec b lost_b then lost_answer else [] else [].
(** What the code answers to it: z = 6. *)
Theorem c53_lost_term : forall n, (20 <= n)%nat ->
  snd (solve_linear_systems (simp n false) lost_solve lost_system) = Ok [("x", 1%Q); ("y", 1%Q); ("z", 6%Q)].
Proof.
  intros n L. assert (K : forall e, In e lost_system -> exists r, simp 20 false e = ([], Ok r) /\ simp n false e = ([], Ok r)).
  { intros e He. assert (R : exists r, simp 20 false e = ([], Ok r)) by (destruct He as [<-|[<-|[<-|[]]]]; eexists; vm_compute; reflexivity).
    destruct R as (r & R). exists r. split; [exact R|]. pose proof (simp_mono 20 n false e L) as M. rewrite R in M. destruct M as [M|M]; [discriminate M|now symmetry]. }
  assert (E : solve_linear_systems (simp n false) lost_solve lost_system = solve_linear_systems (simp 20 false) lost_solve lost_system).
  { unfold solve_linear_systems, lost_system. cbn [mapM].
    destruct (K _ (or_introl eq_refl)) as (r1 & -> & ->), (K _ (or_intror (or_introl eq_refl))) as (r2 & -> & ->),
      (K _ (or_intror (or_intror (or_introl eq_refl)))) as (r3 & -> & ->). reflexivity. }
  rewrite E. vm_compute. reflexivity.
Qed.
Print Assumptions c53_lost_term.
Lemma lost_polynomials : List.Forall2 (fun e ts => polynomial q_int e ts /\ first_powers ts) lost_system lost_terms.
Proof.
  assert (V : forall x, polynomial q_int (qv x) [(Some (x, 1), 1)]) by (intros x; apply pn_term, tm_power, pw_var).
  assert (C : forall z, polynomial q_int (qr z) [(None, z)]) by (intros z; apply pn_term, tm_const; unfold q_int; reflexivity).
  assert (P : forall ts, forallb (fun t => match fst t with Some (_, k) => k =? 1 | None => true end) ts = true -> first_powers ts).
  { intros ts H y k Hin. unfold keys in Hin. apply in_map_iff in Hin. destruct Hin as ([j z] & E & Hin). rewrite forallb_forall in H. specialize (H _ Hin).
    cbn [fst] in E, H. subst j. now apply Z.eqb_eq in H. }
  repeat constructor; try (apply P; reflexivity).
  - apply (pn_add _ _ _ [_] [_]); [apply V|apply C].
  - apply (pn_add _ _ _ [_] [_]); [apply V|apply C].
  - apply (pn_add _ _ _ [_; _; _] [_]); [|apply C]. apply (pn_add _ _ _ [_; _] [_]); [|apply V].
    apply (pn_scale _ _ 2 _ [(Some ("x", 1), 1); (Some ("y", 1), 1)]); [unfold q_int; reflexivity|]. apply (pn_add _ _ _ [_] [_]); apply V.
Qed.
Lemma lost_unknowns : unknowns lost_terms ["x"; "y"; "z"].
Proof.
  split; [repeat constructor; cbn; intuition discriminate|]. intros x. split.
  - intros [<-|[<-|[<-|[]]]]; [exists (nth 0 lost_terms [])|exists (nth 1 lost_terms [])|exists (nth 2 lost_terms [])]; split; cbn; auto; discriminate.
  - intros (ts & [<-|[<-|[<-|[]]]] & H); apply total_in in H; cbn in H;
      (repeat (destruct H as [H|H]; [inversion H; subst; cbn; tauto|])); destruct H.
Qed.
Definition lost_solution (x : string) : R := (if String.eqb x "z" then 2 else 1)%R.
Lemma lost_satisfies rho : satisfies Q2R lost_system rho <-> rho "x" = 1%R /\ rho "y" = 1%R /\ rho "z" = 2%R.
Proof.
  split.
  - intros S.
    pose proof (S _ (or_introl eq_refl)) as H1. pose proof (S _ (or_intror (or_introl eq_refl))) as H2. pose proof (S _ (or_intror (or_intror (or_introl eq_refl)))) as H3.
    cbn in H1, H2, H3. unfold Q2R in *. cbn in H1, H2, H3.
    destruct H1 as (a & b & -> & -> & H1), H2 as (c & d & -> & -> & H2). destruct H3 as (e & f & (g & h & (i & j & -> & (k & l & -> & -> & ->) & ->) & -> & ->) & -> & H3).
    rewrite <- ?RtoC_plus, <- ?RtoC_mult, <- ?RtoC_plus in H1, H2, H3. apply RtoC_inj in H1, H2.
    rewrite <- RtoC_mult, <- !RtoC_plus in H3. apply RtoC_inj in H3. repeat split; lra.
  - intros (X & Y & Z) e [<-|[<-|[<-|[]]]]; cbn; unfold Q2R; cbn; rewrite ?X, ?Y, ?Z.
    + do 2 eexists. split; [reflexivity|]. split; [reflexivity|]. rewrite <- RtoC_plus. f_equal. lra.
    + do 2 eexists. split; [reflexivity|]. split; [reflexivity|]. rewrite <- RtoC_plus. f_equal. lra.
    + do 2 eexists. split; [do 2 eexists; split; [do 2 eexists; split; [reflexivity|split; [do 2 eexists; split; [reflexivity|split; [reflexivity|reflexivity]]|reflexivity]]|split; [reflexivity|reflexivity]]|].
      split; [reflexivity|]. rewrite <- RtoC_plus, <- RtoC_mult, <- !RtoC_plus. f_equal. lra.
Qed.
Lemma lit_value c z : q_int c z -> Q2R c = IZR z.
Proof. intros H. unfold q_int in H. apply Qeq_eqR in H. rewrite H. unfold Q2R. cbn. lra. Qed.
Theorem c53_refuted : ~ C53_statement.
Proof.
  intros S. destruct (S Q Q_ops q_int any q_ints (fun _ => I) Q2R Q_exact lit_value lost_system lost_terms ["x"; "y"; "z"] lost_polynomials lost_unknowns eq_refl)
    as (cols & A & b & K). destruct (K lost_solve) as ((m & H) & G). clear K S.
  specialize (H (max m 20) (Nat.le_max_l _ _)). rewrite (c53_lost_term _ (Nat.le_max_r m 20)) in H. injection H as H.
  cbn [length lost_system] in *. unfold lost_solve in G, H.
  destruct (list_eq_dec Q_dec A lost_A) as [->|NA]; [destruct (list_eq_dec Q_dec b lost_b) as [->|Nb]|].
  - cbv zeta in G. change (@n0 Q Q_ops) with (inject_Z 0) in G. rewrite <- H in G. assert (E : Q2R 6 = lost_solution "z"); [|unfold Q2R in E; cbn in E; lra]. apply G with (x := "z").
    + intros X Hx _ j Hj. pose proof (Hx 0%nat ltac:(lia)) as H0. pose proof (Hx 1%nat ltac:(lia)) as H1. pose proof (Hx 2%nat ltac:(lia)) as H2.
      unfold Q2R in *. cbn in *. destruct j as [|[|[|j]]]; cbn; lra || lia.
    + apply lost_satisfies. cbn. auto.
    + intros rho' Hr x Hx. apply lost_satisfies in Hr. destruct Hr as (? & ? & ?). destruct Hx as [<-|[<-|[<-|[]]]]; cbn; assumption.
    + right. right. now left.
  - destruct cols as [|[x j] cols]; [discriminate H|]. cbn in H. destruct j; discriminate H.
  - destruct cols as [|[x j] cols]; [discriminate H|]. cbn in H. destruct j; discriminate H.
Qed.
Print Assumptions c53_refuted.
