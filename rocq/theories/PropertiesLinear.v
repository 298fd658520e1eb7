(** Properties C32, C33 and C53: linear systems. *)
From Coq Require Import String Bool Arith ZArith QArith Reals Lra Lia.
From Coquelicot Require Import Coquelicot.
From Coq Require Import List.
From Verif Require Import Base Num Expr Simplify Calculus FindZeros MatrixM Linear Spec QNum PropertiesSimplify SemProofs
  ZerosProofs PropertiesMatrix.
Import ListNotations.
Open Scope string_scope.
Open Scope nat_scope.

(** ** Specification *)

(** A linear expression as a list of constants and of variables with their
    coefficients. *)
Definition term : Type := R + (string * R).
Definition names (l : list term) : list string :=
  flat_map (fun t => match t with inr (x, _) => [x] | inl _ => [] end) l.
Definition consts (l : list term) : list R :=
  flat_map (fun t => match t with inl c => [c] | inr _ => [] end) l.
Definition lin_value (l : list term) (rho : string -> R) : R :=
  fold_right (fun t acc => (match t with inl c => c | inr (x, c) => c * rho x end + acc)%R) 0%R l.

(** The coefficient of [x], and the constant. *)
Definition acoef (l : list term) (x : string) : R :=
  fold_right (fun t acc => (match t with inr (y, c) => if String.eqb x y then c else 0 | inl _ => 0 end + acc)%R) 0%R l.
Definition konst (l : list term) : R :=
  fold_right (fun t acc => (match t with inl c => c | inr _ => 0 end + acc)%R) 0%R l.

Section Equation.
  Context {num : Type}.
  Variable toR : num -> R.

  Inductive is_term : expr num -> term -> Prop :=
  | te_const c : is_term (EReal c) (inl (toR c))
  | te_var x : is_term (EVar x) (inr (x, 1%R))
  | te_left c x : is_term (EMul (EReal c) (EVar x)) (inr (x, toR c))
  | te_right c x : is_term (EMul (EVar x) (EReal c)) (inr (x, toR c)).

  Inductive linear : expr num -> list term -> Prop :=
  | li_term e t : is_term e t -> linear e [t]
  | li_add a b l m : linear a l -> linear b m -> linear (EAdd a b) (l ++ m).

  (** An equation: a sum of terms with distinct variables and at most one constant. *)
  Definition equation (e : expr num) (l : list term) : Prop :=
    linear e l /\ (exists a b, e = EAdd a b) /\ NoDup (names l) /\ length (consts l) <= 1.
End Equation.

(** ** C33: no null dereference and no out-of-range access *)
Section Safety.
  Context {num : Type} {N : NumOps num}.

  (** The variable of a term that ConstructMatrices recognises. *)
  Inductive term_var : expr num -> string -> Prop :=
  | tv_var x : term_var (EVar x) x
  | tv_left c x : term_var (EMul (EReal c) (EVar x)) x
  | tv_right c x : term_var (EMul (EVar x) (EReal c)) x.

  (** The variables of the recognised terms of an equation. *)
  Definition has_var (e : expr num) (x : string) : Prop := exists t, In t (flat OAdd e) /\ term_var t x.

  Record vinv (vs : list string) (s : lin (num := num)) : Prop := {
    v_cols : map snd (l_vars s) = seq 0 (l_count s);
    v_names : NoDup (map fst (l_vars s));
    v_incl : incl (map fst (l_vars s)) vs }.

  Lemma vinv_count vs s : vinv vs s -> l_count s <= length vs.
  Proof.
    intros I. pose proof (NoDup_incl_length (v_names _ _ I) (v_incl _ _ I)) as L.
    rewrite map_length in L. pose proof (f_equal (@length nat) (v_cols _ _ I)) as K. rewrite map_length, seq_length in K. lia.
  Qed.

  Lemma map_find_some x m v : map_find x m = Some v -> In (x, v) m.
  Proof.
    induction m as [|[k w] m IH]; cbn; [discriminate|]. destruct (String.eqb x k) eqn:E.
    - apply String.eqb_eq in E. subst. intros H. injection H as ->. now left.
    - intros H. right. auto.
  Qed.
  Lemma map_find_none x m : map_find x m = None -> ~ In x (map fst m).
  Proof.
    induction m as [|[k w] m IH]; cbn; [tauto|]. destruct (String.eqb x k) eqn:E; [discriminate|].
    apply String.eqb_neq in E. intros H [K|K]; [congruence|]. now apply IH.
  Qed.

  Lemma vars_col vs s x v : vinv vs s -> In (x, v) (l_vars s) -> v < l_count s.
  Proof.
    intros I H. apply (in_map snd) in H. cbn in H. rewrite (v_cols _ _ I) in H. apply in_seq in H. lia.
  Qed.

  (** The column step. *)
  Lemma column_spec vs s x s' col : vinv vs s -> In x vs -> column x s = (s', col) ->
    vinv vs s' /\ col < l_count s' /\ In (x, col) (l_vars s') /\
    l_A s' = l_A s /\ l_b s' = l_b s /\
    ((l_vars s' = l_vars s /\ l_count s' = l_count s) \/
     (~ In x (map fst (l_vars s)) /\ col = l_count s /\ l_count s' = S (l_count s) /\ l_vars s' = (l_vars s ++ [(x, col)])%list)).
  Proof.
    intros I Hx. unfold column, get_map_value. destruct (map_find x (l_vars s)) as [v|] eqn:F; intros H; injection H as <- <-.
    - apply map_find_some in F. cbn [l_A l_b l_vars l_count].
      split; [constructor; cbn; apply I|]. split; [exact (vars_col _ _ _ _ I F)|]. auto 10.
    - apply map_find_none in F. cbn [l_A l_b l_vars l_count]. split.
      + constructor; cbn [l_vars l_count].
        * rewrite map_app, (v_cols _ _ I), seq_S. reflexivity.
        * rewrite map_app. cbn. apply (NoDup_Add (a := x) (l := map fst (l_vars s))).
          -- rewrite <- (app_nil_r (map fst (l_vars s))) at 1. apply Add_app.
          -- split; [apply (v_names _ _ I)|exact F].
        * intros y Hy. rewrite map_app in Hy. apply in_app_iff in Hy. destruct Hy as [Hy|[<-|[]]]; [now apply (v_incl _ _ I)|exact Hx].
      + split; [lia|]. split; [apply in_or_app; right; now left|]. repeat split. right. auto.
  Qed.

  Lemma term_cases (t : expr num) :
    (exists c, t = EReal c) \/ (exists x, t = EVar x) \/
    (exists c x, t = EMul (EReal c) (EVar x) \/ t = EMul (EVar x) (EReal c)) \/
    (as_real (rcast PReal t) = None /\ as_var (rcast PVar t) = None /\ as_realvar (rcast (PBin OMul PReal PVar) t) = None /\
     forall x, ~ term_var t x).
  Proof.
    destruct t as [c| |x| | | |r k d|o a b|o a];
      try (right; right; right; repeat split; intros ? K; inversion K; fail).
    - left. eauto.
    - right. left. eauto.
    - destruct o; try (right; right; right; repeat split; intros ? K; inversion K; fail).
      destruct a as [c| |x| | | |r k d|o a1 a2|o a1], b as [c'| |x'| | | |r' k' d'|o' b1 b2|o' b1];
        try (right; right; right; repeat split; intros ? K; inversion K; fail).
      + right. right. left. eauto.
      + right. right. left. eauto.
  Qed.

  Lemma term_safe vs n row s t : length vs <= n -> vinv vs s -> (forall x, term_var t x -> In x vs) ->
    exists s', lin_term n row s t = ret s' /\ vinv vs s'.
  Proof.
    intros L I Ht. unfold lin_term.
    destruct (term_cases t) as [[c ->]|[[x ->]|[(c & x & [->| ->])|(H1 & H2 & H3 & _)]]].
    - cbn. eexists. split; [reflexivity|]. constructor; cbn; apply I.
    - cbn [rcast as_real as_var]. destruct (column x s) as [s' col] eqn:C.
      destruct (column_spec vs s x s' col I (Ht _ (tv_var x)) C) as (I' & Hc & _).
      pose proof (vinv_count _ _ I'). unfold set_A. replace (col <? n) with true by (symmetry; apply Nat.ltb_lt; lia).
      eexists. split; [reflexivity|]. constructor; cbn; apply I'.
    - cbn [rcast binop_eqb commut as_real as_var as_realvar]. destruct (column x s) as [s' col] eqn:C.
      destruct (column_spec vs s x s' col I (Ht _ (tv_left c x)) C) as (I' & Hc & _).
      pose proof (vinv_count _ _ I'). unfold set_A. replace (col <? n) with true by (symmetry; apply Nat.ltb_lt; lia).
      eexists. split; [reflexivity|]. constructor; cbn; apply I'.
    - cbn [rcast binop_eqb commut as_real as_var as_realvar]. destruct (column x s) as [s' col] eqn:C.
      destruct (column_spec vs s x s' col I (Ht _ (tv_right c x)) C) as (I' & Hc & _).
      pose proof (vinv_count _ _ I'). unfold set_A. replace (col <? n) with true by (symmetry; apply Nat.ltb_lt; lia).
      eexists. split; [reflexivity|]. constructor; cbn; apply I'.
    - rewrite H1, H2, H3. eexists. split; [reflexivity|exact I].
  Qed.

  Lemma foldM_safe {A B} (f : A -> B -> M A) (P : A -> Prop) (Q : B -> Prop) :
    (forall s x, P s -> Q x -> exists s', f s x = ret s' /\ P s') ->
    forall l s, P s -> (forall x, In x l -> Q x) -> exists s', Linear.foldM f s l = ret s' /\ P s'.
  Proof.
    intros H. induction l as [|x l IH]; intros s Hs Hl; cbn [Linear.foldM]; [eauto|].
    destruct (H s x Hs (Hl x (or_introl eq_refl))) as (s1 & E & H1). rewrite E.
    destruct (IH s1 H1 (fun y K => Hl y (or_intror K))) as (s2 & E2 & H2). exists s2. split; [|exact H2].
    unfold bind, ret. cbn. now rewrite E2.
  Qed.
End Safety.

Definition C33_statement : Prop :=
  forall (num : Type) (N : NumOps num) (es : list (expr num)),
  (forall u, snd (construct_matrices es) <> Undef u) /\
  forall n prefer solve u, In u [NullDeref; BadIndex] -> snd (solve_linear_systems (simp n prefer) solve es) <> Undef u.

(** An equation that is not a sum, and an equation with two unknowns. *)
Theorem c33_not_a_sum :
  snd (construct_matrices [qv "x"]) = Undef NullDeref /\
  snd (solve_linear_systems (simp 5 false) (fun _ _ b => b) [qv "x"]) = Undef NullDeref.
Proof. split; vm_compute; reflexivity. Qed.
Print Assumptions c33_not_a_sum.

Theorem c33_too_many_variables :
  snd (construct_matrices [EAdd (qv "x") (qv "y")]) = Undef BadIndex /\
  snd (solve_linear_systems (simp 5 false) (fun _ _ b => b) [EAdd (qv "x") (qv "y")]) = Undef BadIndex.
Proof. split; vm_compute; reflexivity. Qed.
Print Assumptions c33_too_many_variables.

Theorem c33_refuted : ~ C33_statement.
Proof. intros H. destruct (H Q Q_ops [qv "x"]) as [K _]. apply (K NullDeref). apply c33_not_a_sum. Qed.
Print Assumptions c33_refuted.

(** Missing: equations that are not sums, and more variables than equations. *)
Theorem c33_construct_partial :
  forall (num : Type) (N : NumOps num) (es : list (expr num)) (vs : list string),
  (forall e, In e es -> exists a b, e = EAdd a b) ->
  (forall e x, In e es -> has_var e x -> In x vs) -> length vs <= length es ->
  exists s, construct_matrices es = ret s.
Proof.
  intros num N es vs Ha Hv Hl. unfold construct_matrices.
  destruct (foldM_safe (lin_row (length es)) (vinv vs) (fun re => In (snd re) es)) with
    (l := combine (seq 0 (length es)) es)
    (s := {| l_A := repeat n0 (length es * length es); l_b := repeat n0 (length es); l_vars := []; l_count := 0 |} : lin (num := num))
    as (s & E & _).
  - intros s [r e] I He. cbn [snd] in He. destruct (Ha e He) as (a & b & ->). unfold lin_row. cbn [snd fst rcast pAdd binop_eqb].
    apply (foldM_safe (lin_term (length es) r) (vinv vs) (fun t => In t (flat OAdd (EAdd a b)))).
    + intros s1 t I1 Ht. apply term_safe; auto. intros x Hx. apply (Hv _ x He). exists t. auto.
    + exact I.
    + intros t Ht. exact Ht.
  - constructor; cbn; [reflexivity|constructor|intros x []].
  - intros [r e] H. apply in_combine_r in H. exact H.
  - exists s. exact E.
Qed.
Print Assumptions c33_construct_partial.

Example c33_case :
  let es := [EAdd (qv "x") (qr 1); EAdd (EMul (qr 2) (qv "y")) (EExp (qv "z") (qr 2))] in
  (forall e x, In e es -> has_var e x -> In x ["x"; "y"]) /\ length ["x"; "y"] <= length es.
Proof.
  split; [|cbn; lia]. intros e x [<-|[<-|[]]] (t & Ht & Hx); destruct Ht as [<-|[<-|[]]]; inversion Hx; cbn; auto.
Qed.

(** ** C32: A x = b iff the equations hold *)

(** All the arithmetic that is needed: 0, 1 and multiplication by -1.  It is
    exact for doubles too ([c32_doubles] in PropertiesLinearPoly). *)
Record Signed {num : Type} (N : NumOps num) (toR : num -> R) : Prop := {
  sg_0 : toR n0 = 0%R;
  sg_1 : toR n1 = 1%R;
  sg_opp : forall c, toR (n_mul nm1 c) = (- toR c)%R }.

Lemma exact_signed {num : Type} (N : NumOps num) (toR : num -> R) : Exact N toR -> Signed N toR.
Proof.
  intros E. constructor; try apply (ex_of_Z _ _ E). intros c. rewrite (ex_mul _ _ E). unfold nm1. rewrite (ex_of_Z _ _ E). ring.
Qed.

Section Values.
  Context {num : Type} {N : NumOps num}.
  Variable toR : num -> R.
  Hypothesis E : Signed N toR.
  Variable n : nat.

  Lemma acoef_cons t l x : acoef (t :: l) x = (match t with inr (y, c) => if String.eqb x y then c else 0 | inl _ => 0 end + acoef l x)%R.
  Proof. reflexivity. Qed.
  Lemma konst_cons t l : konst (t :: l) = (match t with inl c => c | inr _ => 0 end + konst l)%R.
  Proof. reflexivity. Qed.
  Lemma acoef_app l m x : acoef (l ++ m) x = (acoef l x + acoef m x)%R.
  Proof. unfold acoef. induction l as [|t l IH]; cbn [app fold_right]; [ring|]. rewrite IH. ring. Qed.
  Lemma konst_app l m : konst (l ++ m) = (konst l + konst m)%R.
  Proof. unfold konst. induction l as [|t l IH]; cbn [app fold_right]; [ring|]. rewrite IH. ring. Qed.
  Lemma names_app l m : names (l ++ m) = (names l ++ names m)%list.
  Proof. apply flat_map_app. Qed.
  Lemma consts_app l m : consts (l ++ m) = (consts l ++ consts m)%list.
  Proof. apply flat_map_app. Qed.
  Lemma acoef_none l x : ~ In x (names l) -> acoef l x = 0%R.
  Proof.
    induction l as [|[c|[y c]] l IH]; intros H; [reflexivity| |]; rewrite acoef_cons; cbn in H.
    - rewrite IH by exact H. ring.
    - destruct (String.eqb x y) eqn:Q; [apply String.eqb_eq in Q; subst; tauto|]. rewrite IH by tauto. ring.
  Qed.
  Lemma konst_none l : consts l = [] -> konst l = 0%R.
  Proof. induction l as [|[c|[y c]] l IH]; intros H; [reflexivity|discriminate|]. rewrite konst_cons, IH by exact H. ring. Qed.

  (* P r: the terms of row r that have been processed *)
  Record linv (vs : list string) (P : nat -> list term) (s : lin (num := num)) : Prop := {
    i_v : vinv vs s;
    i_A : length (l_A s) = n * n;
    i_b : length (l_b s) = n;
    i_cov : forall r x, In x (names (P r)) -> In x (map fst (l_vars s));
    i_coef : forall r x col, r < n -> In (x, col) (l_vars s) -> toR (mget n (l_A s) r col) = acoef (P r) x;
    i_zero : forall r col, r < n -> l_count s <= col -> col < n -> toR (mget n (l_A s) r col) = 0%R;
    i_const : forall r, r < n -> toR (nth r (l_b s) n0) = (- konst (P r))%R }.

  Definition grow (P : nat -> list term) (r : nat) (t : list term) : nat -> list term :=
    fun q => if q =? r then (P q ++ t)%list else P q.

  Lemma mget_mset d r c i j v : length d = n * n -> r < n -> c < n -> i < n -> j < n ->
    mget n (mset n d r c v) i j = if (i =? r) && (j =? c) then v else mget n d i j.
  Proof.
    intros L Hr Hc Hi Hj. unfold mget, mset.
    pose proof (index_lt n n i j Hi Hj) as B1. pose proof (index_lt n n r c Hr Hc) as B2.
    assert (K : nth_error (set_nth (r * n + c) v d) (i * n + j) = Some (if (i =? r) && (j =? c) then v else nth (i * n + j) d n0)).
    { rewrite nth_set_nth. destruct (i * n + j =? r * n + c) eqn:Q.
      - apply Nat.eqb_eq in Q. destruct (index_inj n i j r c Hj Hc Q) as [-> ->]. rewrite !Nat.eqb_refl.
        replace (r * n + c <? length d) with true by (symmetry; apply Nat.ltb_lt; lia). reflexivity.
      - cbn [andb]. replace ((i =? r) && (j =? c)) with false; [apply nth_error_nth'; lia|].
        symmetry. apply andb_false_iff. apply Nat.eqb_neq in Q. rewrite !Nat.eqb_neq.
        destruct (Nat.eq_dec i r); [right|now left]. subst. intros ->. lia. }
    now apply nth_error_nth.
  Qed.
  Lemma nth_set d r v i : i < length d -> nth i (set_nth r v d) n0 = if i =? r then v else nth i d n0.
  Proof.
    intros L. apply nth_error_nth. rewrite nth_set_nth. destruct (i =? r); cbn [andb].
    - replace (i <? length d) with true by (symmetry; apply Nat.ltb_lt; lia). reflexivity.
    - now apply nth_error_nth'.
  Qed.

  Lemma vars_fun vs (s : lin (num := num)) x y col col' : vinv vs s -> In (x, col) (l_vars s) -> In (y, col') (l_vars s) ->
    (x = y <-> col = col').
  Proof.
    intros I Hx Hy.
    assert (F : NoDup (map snd (l_vars s))) by (rewrite (v_cols _ _ I); apply seq_NoDup).
    pose proof (v_names _ _ I) as G. revert Hx Hy F G. generalize (l_vars s) as m. clear.
    induction m as [|[k v] m IH]; cbn; [tauto|]. intros [Hx|Hx] [Hy|Hy] F G; inversion F; inversion G; subst.
    - injection Hx as <- <-. injection Hy as <- <-. tauto.
    - injection Hx as <- <-. split; intros ->; exfalso; [apply H5; now apply (in_map fst) in Hy|apply H1; now apply (in_map snd) in Hy].
    - injection Hy as <- <-. split; intros ->; exfalso; [apply H5; now apply (in_map fst) in Hx|apply H1; now apply (in_map snd) in Hx].
    - auto.
  Qed.

  (* one write of a coefficient *)
  Lemma coef_step vs P s s' r x c col s2 v : length vs <= n -> linv vs P s -> r < n -> In x vs ->
    ~ In x (names (P r)) -> column x s = (s', col) -> set_A n r col v s' = ret s2 -> toR v = c ->
    linv vs (grow P r [inr (x, c)]) s2.
  Proof.
    intros Lv I Hr Hx Hn C HA Hc.
    destruct (column_spec vs s x s' col (i_v _ _ _ I) Hx C) as (I' & Hcol & Hin & EA & Eb & D).
    pose proof (vinv_count _ _ I') as Cn.
    unfold set_A in HA. replace (col <? n) with true in HA by (symmetry; apply Nat.ltb_lt; lia).
    injection HA as <-.
    assert (N' : forall q y, In y (names (grow P r [inr (x, c)] q)) -> y = x \/ In y (names (P q))).
    { intros q y. unfold grow. destruct (q =? r); [|auto]. rewrite names_app, in_app_iff. cbn. intuition. }
    assert (V : forall y k, In (y, k) (l_vars s') -> In (y, k) (l_vars s) \/ (y = x /\ k = col)).
    { intros y k H. destruct D as [[D _]|(_ & _ & _ & D)]; rewrite D in H; [now left|].
      apply in_app_iff in H. destruct H as [H|[H|[]]]; [now left|injection H as <- <-; now right]. }
    assert (V2 : incl (map fst (l_vars s)) (map fst (l_vars s'))).
    { destruct D as [[-> _]|(_ & _ & _ & ->)]; [apply incl_refl|]. rewrite map_app. apply incl_appl, incl_refl. }
    (* the value before the write *)
    assert (B : forall q y k, q < n -> In (y, k) (l_vars s') -> toR (mget n (l_A s) q k) = acoef (P q) y).
    { intros q y k Hq H. destruct (V y k H) as [H'|[-> ->]]; [now apply (i_coef _ _ _ I)|].
      destruct D as [[D _]|(D1 & D2 & D3 & _)].
      - rewrite D in Hin. now apply (i_coef _ _ _ I).
      - rewrite acoef_none; [|intros K; apply D1; now apply (i_cov _ _ _ I q)].
        apply (i_zero _ _ _ I); [exact Hq|lia|lia]. }
    constructor; cbn [l_A l_b l_vars l_count].
    - constructor; cbn; apply I'.
    - unfold mset. rewrite set_nth_length, EA. apply (i_A _ _ _ I).
    - rewrite Eb. apply (i_b _ _ _ I).
    - intros q y H. destruct (N' q y H) as [->|H']; [now apply (in_map fst) in Hin|]. apply V2. now apply (i_cov _ _ _ I q).
    - intros q y k Hq H. pose proof (vars_col _ _ _ _ I' H) as Hk.
      rewrite EA, mget_mset by (try apply (i_A _ _ _ I); lia).
      unfold grow. destruct (q =? r) eqn:Q; cbn [andb].
      + apply Nat.eqb_eq in Q. subst q. rewrite acoef_app. cbn [acoef fold_right].
        pose proof (vars_fun _ _ _ _ _ _ I' H Hin) as U. destruct (k =? col) eqn:K.
        * apply Nat.eqb_eq in K. apply U in K. subst y. rewrite String.eqb_refl, Hc, (acoef_none (P r)) by exact Hn. ring.
        * apply Nat.eqb_neq in K. assert (y <> x) as Hyx by tauto. apply String.eqb_neq in Hyx. rewrite Hyx, (B r y k Hr H). ring.
      + apply (B q y k Hq H).
    - intros q k Hq Hk1 Hk2. rewrite EA, mget_mset by (try apply (i_A _ _ _ I); lia).
      replace (k =? col) with false by (symmetry; apply Nat.eqb_neq; lia). rewrite andb_false_r.
      apply (i_zero _ _ _ I); auto. destruct D as [[_ D]|(_ & _ & D & _)]; lia.
    - intros q Hq. rewrite Eb, (i_const _ _ _ I q Hq). unfold grow. destruct (q =? r); [|reflexivity].
      rewrite konst_app. cbn. ring.
  Qed.

  Lemma term_step vs P s r t td : length vs <= n -> linv vs P s -> r < n -> is_term toR t td ->
    (forall x, In x (names [td]) -> In x vs) ->
    NoDup (names (P r ++ [td])) -> length (consts (P r ++ [td])) <= 1 ->
    exists s', lin_term n r s t = ret s' /\ linv vs (grow P r [td]) s'.
  Proof.
    intros Lv I Hr Ht Hv Hnd Hc. rewrite names_app in Hnd. rewrite consts_app, app_length in Hc.
    assert (O : forall x c, td = inr (x, c) -> In x vs /\ ~ In x (names (P r))).
    { intros x c ->. split; [apply Hv; now left|]. cbn in Hnd. intros K.
      apply NoDup_remove_2 in Hnd. rewrite app_nil_r in Hnd. auto. }
    assert (T : exists s', lin_term n r s t = ret s' /\ vinv vs s').
    { apply term_safe; [exact Lv|apply I|]. intros x Hx. apply Hv. destruct Ht; inversion Hx; now left. }
    destruct T as (s2 & Hs2 & _). exists s2. split; [exact Hs2|].
    assert (One : toR n1 = 1%R) by apply (sg_1 _ _ E).
    destruct Ht as [c|x|c x|c x]; unfold lin_term in Hs2; cbn [rcast binop_eqb commut as_real as_var as_realvar] in Hs2.
    - injection Hs2 as <-. constructor; cbn [l_A l_b l_vars l_count].
      + constructor; cbn; apply (i_v _ _ _ I).
      + apply (i_A _ _ _ I).
      + rewrite set_nth_length. apply (i_b _ _ _ I).
      + intros q y H. apply (i_cov _ _ _ I q). unfold grow in H. destruct (q =? r); [|exact H].
        rewrite names_app in H. cbn in H. now rewrite app_nil_r in H.
      + intros q y k Hq H. rewrite (i_coef _ _ _ I q y k Hq H). unfold grow. destruct (q =? r); [|reflexivity].
        rewrite acoef_app. cbn. ring.
      + apply (i_zero _ _ _ I).
      + intros q Hq. rewrite nth_set by (rewrite (i_b _ _ _ I); exact Hq). unfold grow.
        destruct (q =? r) eqn:Q; [|now apply (i_const _ _ _ I)]. apply Nat.eqb_eq in Q. subst q.
        rewrite konst_app, konst_none; [|cbn in Hc; destruct (consts (P r)); [reflexivity|cbn in Hc; lia]].
        cbn [konst fold_right]. rewrite (sg_opp _ _ E). ring.
    - destruct (column x s) as [s' col] eqn:C. destruct (O x _ eq_refl) as [Hx Hn].
      exact (coef_step vs P s s' r x 1%R col s2 n1 Lv I Hr Hx Hn C Hs2 One).
    - destruct (column x s) as [s' col] eqn:C. destruct (O x _ eq_refl) as [Hx Hn].
      exact (coef_step vs P s s' r x (toR c) col s2 c Lv I Hr Hx Hn C Hs2 eq_refl).
    - destruct (column x s) as [s' col] eqn:C. destruct (O x _ eq_refl) as [Hx Hn].
      exact (coef_step vs P s s' r x (toR c) col s2 c Lv I Hr Hx Hn C Hs2 eq_refl).
  Qed.

  Lemma NoDup_app_l {A} (a b : list A) : NoDup (a ++ b) -> NoDup a.
  Proof.
    induction a as [|x a IH]; cbn; intros H; [constructor|]. inversion H; subst. constructor; [|auto].
    intros K. apply H2. apply in_or_app. now left.
  Qed.
  (* one row *)
  Lemma terms_loop vs r ts tds : length vs <= n -> r < n -> List.Forall2 (is_term toR) ts tds ->
    (forall x, In x (names tds) -> In x vs) -> forall P s, linv vs P s ->
    NoDup (names (P r ++ tds)) -> length (consts (P r ++ tds)) <= 1 ->
    exists s' P', Linear.foldM (lin_term n r) s ts = ret s' /\ linv vs P' s' /\
      P' r = (P r ++ tds)%list /\ forall q, q <> r -> P' q = P q.
  Proof.
    intros Lv Hr F. induction F as [|t td ts tds Ht F IH]; intros Hv P s I Hnd Hc.
    - exists s, P. cbn. rewrite app_nil_r. auto.
    - destruct (term_step vs P s r t td Lv I Hr Ht) as (s1 & E1 & I1).
      + intros x Hx. apply Hv. change (td :: tds) with ([td] ++ tds)%list. rewrite names_app. apply in_or_app. now left.
      + change (td :: tds) with ([td] ++ tds)%list in Hnd. rewrite app_assoc, names_app in Hnd.
        exact (NoDup_app_l _ _ Hnd).
      + change (td :: tds) with ([td] ++ tds)%list in Hc. rewrite app_assoc, consts_app, app_length in Hc. lia.
      + assert (G : grow P r [td] r = (P r ++ [td])%list) by (unfold grow; now rewrite Nat.eqb_refl).
        destruct (IH) with (P := grow P r [td]) (s := s1) as (s2 & P2 & E2 & I2 & H1 & H2).
        * intros x Hx. apply Hv. change (td :: tds) with ([td] ++ tds)%list. rewrite names_app. apply in_or_app. now right.
        * exact I1.
        * rewrite G, <- app_assoc. exact Hnd.
        * rewrite G, <- app_assoc. exact Hc.
        * exists s2, P2. split; [cbn [Linear.foldM]; rewrite E1; unfold bind, ret; cbn; now rewrite E2|].
          split; [exact I2|]. split; [rewrite H1, G, <- app_assoc; reflexivity|].
          intros q Hq. rewrite H2 by exact Hq. unfold grow. apply Nat.eqb_neq in Hq. now rewrite Hq.
  Qed.

  Lemma is_term_flat t td : is_term toR t td -> flat OAdd t = [t].
  Proof. destruct 1; reflexivity. Qed.
  Lemma linear_flat e l : linear toR e l -> List.Forall2 (is_term toR) (flat OAdd e) l.
  Proof.
    induction 1 as [e t H|a b l m Ha IHa Hb IHb].
    - rewrite (is_term_flat _ _ H). repeat constructor. exact H.
    - cbn [flat binop_eqb]. apply Forall2_app; assumption.
  Qed.

  Lemma rows_loop vs : length vs <= n -> forall es ls, List.Forall2 (equation toR) es ls ->
    (forall l x, In l ls -> In x (names l) -> In x vs) ->
    forall k P s, k + length es = n -> linv vs P s -> (forall r, k <= r -> P r = []) ->
    exists s' P', Linear.foldM (lin_row n) s (combine (seq k (length es)) es) = ret s' /\ linv vs P' s' /\
      (forall r, r < k -> P' r = P r) /\ (forall i, i < length es -> P' (k + i) = nth i ls []).
  Proof.
    intros Lv es ls F. induction F as [|e l es ls He F IH]; intros Hv k P s Hk I HP.
    - exists s, P. cbn. split; [reflexivity|]. split; [exact I|]. split; [auto|]. intros i Hi. lia.
    - cbn [length] in *. destruct He as (Hlin & (a & b & ->) & Hnd & Hc).
      destruct (terms_loop vs k _ _ Lv ltac:(lia) (linear_flat _ _ Hlin)) with (P := P) (s := s) as (s1 & P1 & E1 & I1 & H1 & H2).
      + intros x Hx. apply (Hv l); [now left|exact Hx].
      + exact I.
      + rewrite HP by lia. exact Hnd.
      + rewrite HP by lia. exact Hc.
      + rewrite HP in H1 by lia. cbn [app] in H1.
        destruct (IH (fun l' x K => Hv l' x (or_intror K)) (S k) P1 s1) as (s2 & P2 & E2 & I2 & H3 & H4).
        * lia.
        * exact I1.
        * intros r Hr. rewrite H2 by lia. apply HP. lia.
        * exists s2, P2. split.
          { cbn [seq combine Linear.foldM]. unfold lin_row at 1. cbn [fst snd rcast pAdd binop_eqb].
            change (flatten OAdd a b) with (flat OAdd (EAdd a b)). rewrite E1. unfold bind, ret. cbn [fst snd app].
            rewrite E2. reflexivity. }
          split; [exact I2|]. split.
          { intros r Hr. rewrite H3 by lia. apply H2. lia. }
          intros [|i] Hi; cbn [nth].
          { rewrite Nat.add_0_r, H3 by lia. exact H1. }
          { rewrite <- H4 by lia. f_equal. lia. }
  Qed.

  (* sums *)
  Lemma Rsum_S m f : Rsum (S m) f = (Rsum m f + f m)%R.
  Proof.
    unfold Rsum. rewrite seq_S, map_app. cbn. generalize (map f (seq 0 m)) as l. induction l as [|x l IH]; cbn; [ring|]. rewrite IH. ring.
  Qed.
  Lemma Rsum_zero m k f : m <= k -> (forall j, m <= j -> j < k -> f j = 0%R) -> Rsum k f = Rsum m f.
  Proof.
    intros Hm H. induction k as [|k IH]; [assert (m = 0) by lia; now subst|].
    destruct (Nat.eq_dec m (S k)) as [->|]; [reflexivity|]. rewrite Rsum_S, IH, H by (try lia; intros; apply H; lia). ring.
  Qed.
  Lemma Rsum_vars m (f : nat -> R) (g : string -> R) : forall vars : list (string * nat), map snd vars = seq 0 m ->
    (forall x col, In (x, col) vars -> f col = g x) ->
    Rsum m f = fold_right (fun xc acc => (g (fst xc) + acc)%R) 0%R vars.
  Proof.
    unfold Rsum. generalize 0 at 1 2. induction m as [|m IH]; intros k [|[x c] vars] Hs H; try discriminate Hs; cbn in *; [reflexivity|].
    injection Hs as -> Hs. rewrite (IH (S k) vars Hs) by (intros; apply H; now right). rewrite (H x k) by now left. reflexivity.
  Qed.

  Lemma pick (vars : list (string * nat)) y v : NoDup (map fst vars) -> In y (map fst vars) ->
    fold_right (fun xc acc => ((if String.eqb (fst xc) y then v else 0) + acc)%R) 0%R vars = v.
  Proof.
    induction vars as [|[x c] vars IH]; cbn; [tauto|]. intros ND H. inversion ND; subst.
    destruct H as [->|H].
    - rewrite String.eqb_refl. replace (fold_right _ _ _) with 0%R; [ring|]. symmetry. clear IH ND H3. revert H2.
      induction vars as [|[x c'] vars IH]; cbn; [reflexivity|]. intros K. destruct (String.eqb x y) eqn:Q; [apply String.eqb_eq in Q; subst; tauto|].
      rewrite IH by tauto. ring.
    - destruct (String.eqb x y) eqn:Q; [apply String.eqb_eq in Q; subst; tauto|]. rewrite IH by assumption. ring.
  Qed.
  Lemma vars_value (vars : list (string * nat)) rho l : NoDup (map fst vars) -> (forall x, In x (names l) -> In x (map fst vars)) ->
    fold_right (fun xc acc => (acoef l (fst xc) * rho (fst xc) + acc)%R) 0%R vars = (lin_value l rho - konst l)%R.
  Proof.
    intros ND. induction l as [|t l IH]; intros H.
    - cbn. clear ND H. induction vars as [|x vars IH]; cbn; [ring|]. rewrite IH. ring.
    - assert (S : forall g h, fold_right (fun (xc : string * nat) acc => ((g xc + h xc) + acc)%R) 0%R vars =
        (fold_right (fun xc acc => (g xc + acc)%R) 0%R vars + fold_right (fun xc acc => (h xc + acc)%R) 0%R vars)%R).
      { intros g h. clear. induction vars as [|x vars IH]; cbn; [ring|]. rewrite IH. ring. }
      transitivity (fold_right (fun (xc : string * nat) acc =>
         ((match t with inr (y, c) => if String.eqb (fst xc) y then c * rho y else 0 | inl _ => 0 end + acoef l (fst xc) * rho (fst xc)) + acc)%R) 0%R vars).
      { clear. induction vars as [|x vars IH]; cbn [fold_right]; [reflexivity|]. rewrite IH. f_equal.
        cbn [acoef fold_right]. fold (acoef l (fst x)). destruct t as [c|[y c]]; [ring|].
        destruct (String.eqb (fst x) y) eqn:Q; [apply String.eqb_eq in Q; rewrite <- Q; ring|ring]. }
      rewrite (S (fun xc => match t with inr (y, c) => if String.eqb (fst xc) y then c * rho y else 0 | inl _ => 0 end)%R
                 (fun xc => (acoef l (fst xc) * rho (fst xc))%R)).
      rewrite IH.
      + cbn [lin_value konst fold_right]. fold (lin_value l rho) (konst l). destruct t as [c|[y c]].
        * replace (fold_right _ _ vars) with 0%R; [ring|]. clear. induction vars as [|x vars IH]; cbn; [reflexivity|]. rewrite <- IH. ring.
        * rewrite (pick vars y (c * rho y)%R ND); [ring|]. apply H. now left.
      + intros x Hx. apply H. destruct t as [c|[y c]]; [exact Hx|]. now right.
  Qed.

  Lemma lin_value_app l m rho : lin_value (l ++ m) rho = (lin_value l rho + lin_value m rho)%R.
  Proof. unfold lin_value. induction l as [|t l IH]; cbn [app fold_right]; [ring|]. rewrite IH. ring. Qed.
End Values.

(** The meaning of the specification: an equation has the value of its terms. *)
Theorem c32_linear_value :
  forall (num : Type) (toR : num -> R) (e : expr num) (l : list term), linear toR e l ->
  forall rho v, ev toR e rho v <-> v = RtoC (lin_value l rho).
Proof.
  intros num toR e l H rho. induction H as [e t H|a b l m Ha IHa Hb IHb]; intros v.
  - cbn [lin_value fold_right]. rewrite Rplus_0_r. destruct H as [c|x|c x|c x]; cbn.
    + tauto.
    + now rewrite Rmult_1_l.
    + split; [intros (p & q & -> & -> & ->); now rewrite RtoC_mult|]. intros ->.
      exists (RtoC (toR c)), (RtoC (rho x)). now rewrite RtoC_mult.
    + rewrite Rmult_comm. split; [intros (p & q & -> & -> & ->); now rewrite RtoC_mult|]. intros ->.
      exists (RtoC (rho x)), (RtoC (toR c)). now rewrite RtoC_mult.
  - rewrite lin_value_app. cbn. split.
    + intros (p & q & Hp & Hq & ->). apply IHa in Hp. apply IHb in Hq. subst. now rewrite RtoC_plus.
    + intros ->. exists (RtoC (lin_value l rho)), (RtoC (lin_value m rho)). rewrite RtoC_plus.
      split; [now apply IHa|split; [now apply IHb|reflexivity]].
Qed.
Print Assumptions c32_linear_value.

(** [solves n A b X]: A X = b. *)
Definition solves {num : Type} {N : NumOps num} (toR : num -> R) (n : nat) (A b : list num) (X : nat -> R) : Prop :=
  forall i, i < n -> Rsum n (fun j => (toR (nth (i * n + j) A n0) * X j)%R) = toR (nth i b n0).

Theorem c32_construct :
  forall (num : Type) (N : NumOps num) (toR : num -> R), Signed N toR ->
  forall (es : list (expr num)) (ls : list (list term)) (vs : list string),
  List.Forall2 (equation toR) es ls ->
  (forall l x, In l ls -> In x (names l) -> In x vs) -> length vs <= length es ->
  exists s, construct_matrices es = ret s /\
    let n := length es in
    length (l_A s) = n * n /\ length (l_b s) = n /\
    NoDup (map fst (l_vars s)) /\ NoDup (map snd (l_vars s)) /\
    (forall l x, In l ls -> In x (names l) -> exists col, In (x, col) (l_vars s)) /\
    (forall x col, In (x, col) (l_vars s) -> col < n /\ In x vs) /\
    (forall i x col, i < n -> In (x, col) (l_vars s) -> toR (nth (i * n + col) (l_A s) n0) = acoef (nth i ls []) x) /\
    (forall i, i < n -> toR (nth i (l_b s) n0) = (- konst (nth i ls []))%R) /\
    forall (rho : string -> R) (X : nat -> R), (forall x col, In (x, col) (l_vars s) -> X col = rho x) ->
    (solves toR n (l_A s) (l_b s) X <-> forall e, In e es -> ev toR e rho (RtoC 0)).
Proof.
  intros num N toR E es ls vs F Hv Hl. set (n := length es).
  assert (Z0 : toR n0 = 0%R) by apply (sg_0 _ _ E).
  assert (NR : forall k m, toR (nth k (repeat n0 m) n0) = 0%R).
  { intros k m. rewrite nth_repeat. exact Z0. }
  destruct (rows_loop toR E n vs Hl es ls F Hv 0 (fun _ => []) 
    {| l_A := repeat n0 (n * n); l_b := repeat n0 n; l_vars := []; l_count := 0 |}) as (s & P & Hs & I & _ & HP).
  - reflexivity.
  - constructor; cbn [l_A l_b l_vars l_count]; try (apply repeat_length); try tauto.
    + constructor; cbn; [reflexivity|constructor|intros x []].
    + intros r x col _ [].
    + intros r col _ _ _. apply NR.
    + intros r _. cbn. rewrite NR. ring.
  - reflexivity.
  - exists s. split; [exact Hs|]. cbn zeta.
    pose proof (i_v _ _ _ _ _ I) as V. pose proof (vinv_count _ _ V) as Cn.
    assert (Len : length ls = n) by (symmetry; clear -F; induction F; cbn; congruence).
    assert (HP' : forall i, i < n -> P i = nth i ls []) by (intros i Hi; now apply (HP i)).
    split; [apply I|]. split; [apply I|]. split; [apply V|].
    split; [rewrite (v_cols _ _ V); apply seq_NoDup|]. split; [|split; [|split; [|split]]].
    + intros l x Hin Hx. apply (In_nth _ _ []) in Hin. destruct Hin as (i & Hi & <-). rewrite Len in Hi.
      rewrite <- HP' in Hx by exact Hi. apply (i_cov _ _ _ _ _ I) in Hx. apply in_map_iff in Hx.
      destruct Hx as ([y col] & <- & Hx). now exists col.
    + intros x col H. split; [pose proof (vars_col _ _ _ _ V H); lia|]. apply (v_incl _ _ V). now apply (in_map fst) in H.
    + intros i x col Hi H. change (nth (i * n + col) (l_A s) n0) with (mget n (l_A s) i col).
      rewrite (i_coef _ _ _ _ _ I i x col Hi H), (HP' i Hi). reflexivity.
    + intros i Hi. rewrite (i_const _ _ _ _ _ I i Hi), (HP' i Hi). reflexivity.
    + intros rho X HX.
      assert (Row : forall i, i < n -> (Rsum n (fun j => (toR (nth (i * n + j) (l_A s) n0) * X j)%R) = toR (nth i (l_b s) n0)
                                        <-> lin_value (nth i ls []) rho = 0%R)).
      { intros i Hi. rewrite (i_const _ _ _ _ _ I i Hi), (HP' i Hi).
        rewrite (Rsum_zero (l_count s) n).
        2: lia.
        2:{ intros j Hj1 Hj2. change (nth (i * n + j) (l_A s) n0) with (mget n (l_A s) i j).
            rewrite (i_zero _ _ _ _ _ I i j Hi Hj1 Hj2). ring. }
        rewrite (Rsum_vars (l_count s) _ (fun x => (acoef (nth i ls []) x * rho x)%R) (l_vars s) (v_cols _ _ V)).
        2:{ intros x col H. change (nth (i * n + col) (l_A s) n0) with (mget n (l_A s) i col).
            rewrite (i_coef _ _ _ _ _ I i x col Hi H), (HP' i Hi), (HX x col H). reflexivity. }
        rewrite (vars_value (l_vars s) rho (nth i ls []) (v_names _ _ V)).
        2:{ intros x Hx. rewrite <- (HP' i Hi) in Hx. exact (i_cov _ _ _ _ _ I i x Hx). }
        split; intros H; lra. }
      assert (Ev : forall i, i < n -> (ev toR (nth i es EUndef) rho (RtoC 0) <-> lin_value (nth i ls []) rho = 0%R)).
      { intros i Hi. assert (Q : equation toR (nth i es EUndef) (nth i ls [])).
        { clear -F Hi. unfold n in Hi. revert i Hi. induction F as [|e l es ls H F IH]; intros [|i] Hi; cbn in *; try lia; auto.
          apply IH. lia. }
        destruct Q as (Q & _). rewrite (c32_linear_value _ _ _ _ Q). split; [intros H; now apply RtoC_inj in H|now intros ->]. }
      split.
      * intros H e He. apply (In_nth _ _ EUndef) in He. destruct He as (i & Hi & <-). apply Ev; [exact Hi|]. apply Row; [exact Hi|]. now apply H.
      * intros H i Hi. apply Row; [exact Hi|]. apply Ev; [exact Hi|]. apply H. now apply nth_In.
Qed.
Print Assumptions c32_construct.

(** 2x + y - 4 = 0, x - y + 1 = 0. *)
Definition c32_system : list (expr Q) :=
  [EAdd (EMul (qr 2) (qv "x")) (EAdd (qv "y") (qr (-4))); EAdd (qv "x") (EAdd (EMul (qv "y") (qr (-1))) (qr 1))].
Example c32_case :
  exists ls, List.Forall2 (equation Q2R) c32_system ls /\ (forall l x, In l ls -> In x (names l) -> In x ["x"; "y"]) /\
  exists s, construct_matrices c32_system = ret s /\ l_A s = [2; 1; 1; -1]%Q /\ l_vars s = [("x", 0); ("y", 1)].
Proof.
  exists [[inr ("x", Q2R 2)] ++ [inr ("y", 1%R)] ++ [inl (Q2R (-4))];
          [inr ("x", 1%R)] ++ [inr ("y", Q2R (-1))] ++ [inl (Q2R 1)]]%list.
  split; [|split; [|eexists; split; [vm_compute; reflexivity|split; reflexivity]]].
  - apply List.Forall2_cons; [|apply List.Forall2_cons; [|apply List.Forall2_nil]].
    + split; [repeat apply li_add; apply li_term; constructor|]. split; [eexists; eexists; reflexivity|].
      split; [|cbn; lia]. cbn. repeat constructor; cbn; intuition discriminate.
    + split; [repeat apply li_add; apply li_term; constructor|]. split; [eexists; eexists; reflexivity|].
      split; [|cbn; lia]. cbn. repeat constructor; cbn; intuition discriminate.
  - intros l x [<-|[<-|[]]]; cbn; tauto.
Qed.

(** Equations with repeated variables are outside: (x + x) - 2 = 0 becomes 1*x = 2. *)
Theorem c32_repeated_terms :
  exists s, construct_matrices [EAdd (EAdd (qv "x") (qv "x")) (qr (-2))] = ret s /\
  l_A s = [1%Q] /\ l_b s = [2%Q] /\
  ev Q2R (EAdd (EAdd (qv "x") (qv "x")) (qr (-2))) (fun _ => 1%R) (RtoC 0) /\ ~ (Q2R 1 * 1 = Q2R 2)%R.
Proof.
  eexists. split; [vm_compute; reflexivity|]. split; [reflexivity|]. split; [reflexivity|]. split.
  - cbn. exists (RtoC 2), (RtoC (-2)).
    split; [exists (RtoC 1), (RtoC 1); split; [reflexivity|split; [reflexivity|]]; rewrite <- RtoC_plus; f_equal; lra|].
    split; [f_equal; unfold Q2R; cbn; lra|rewrite <- RtoC_plus; f_equal; lra].
  - unfold Q2R. cbn. lra.
Qed.
Print Assumptions c32_repeated_terms.

(** ** C53: SolveLinearSystems returns a solution *)

(** Missing: runs with flagged simplifications, results of Simplify that are
    not sums of distinct terms. *)
Theorem c53_solution_partial :
  forall (num : Type) (N : NumOps num) (toR : num -> R), Exact N toR ->
  forall (n : nat) (prefer : bool) (solve : nat -> list num -> list num -> list num)
    (es es' : list (expr num)) (ls : list (list term)) (vs : list string),
  List.Forall2 (fun e e' => simp n prefer e = ([], Ok e')) es es' ->
  List.Forall2 (equation toR) es' ls ->
  (forall l x, In l ls -> In x (names l) -> In x vs) -> length vs <= length es ->
  exists A b vals,
    snd (solve_linear_systems (simp n prefer) solve es) = Ok vals /\
    NoDup (map fst vals) /\ (forall l x, In l ls -> In x (names l) -> In x (map fst vals)) /\
    let x := fun j => toR (nth j (solve (length es) A b) n0) in
    (* if Eigen's answer solves A x = b, the values solve the equations *)
    (solves toR (length es) A b x ->
     forall rho, (forall v c, In (v, c) vals -> rho v = toR c) ->
     forall e, In e es -> forall v, ev toR e rho v -> v = RtoC 0) /\
    (* if it is the only solution of A x = b, they are the only values *)
    ((forall X, solves toR (length es) A b X -> forall j, j < length es -> X j = x j) ->
     forall rho, (forall e, In e es -> ev toR e rho (RtoC 0)) ->
     forall v c, In (v, c) vals -> rho v = toR c).
Proof.
  intros num N toR E n prefer solve es es' ls vs Fs F Hv Hl.
  assert (Len : length es' = length es) by (clear -Fs; induction Fs; cbn; congruence).
  destruct (c32_construct num N toR (exact_signed N toR E) es' ls vs F Hv ltac:(lia)) as (s & Hs & LA & Lb & ND1 & ND2 & Cov & Col & _ & _ & Iff).
  exists (l_A s), (l_b s), (map (fun kv => (fst kv, nth (snd kv) (solve (length es') (l_A s) (l_b s)) n0)) (l_vars s)).
  assert (Hm : snd (mapM (fun e => m_value (simp n prefer e)) es) = Ok es').
  { clear -Fs. induction Fs as [|e e' es es' H Fs IH]; [reflexivity|]. cbn [mapM].
    assert (H1 : snd (m_value (simp n prefer e)) = Ok e') by now rewrite H.
    rewrite (snd_bind _ _ _ H1), (snd_bind _ _ _ IH). reflexivity. }
  split; [|split; [|split]].
  - unfold solve_linear_systems. rewrite (snd_bind _ _ _ Hm).
    assert (Hs' : snd (construct_matrices es') = Ok s) by now rewrite Hs.
    rewrite (snd_bind _ _ _ Hs'). reflexivity.
  - rewrite map_map. exact ND1.
  - intros l x Hin Hx. destruct (Cov l x Hin Hx) as (col & K). rewrite map_map. now apply (in_map fst) in K.
  - cbn zeta. rewrite <- Len. set (X := fun j => toR (nth j (solve (length es') (l_A s) (l_b s)) n0)).
    assert (Old : forall e, In e es -> exists e', In e' es' /\ forall rho v, ev toR e rho v -> ev toR e' rho v).
    { clear -Fs E. intros e He. induction Fs as [|e1 e' es es' H Fs IH]; [destruct He|]. destruct He as [<-|He].
      - exists e'. split; [now left|]. intros rho v. exact (c12_simplify_value_partial num N toR E n prefer _ _ H rho v).
      - destruct (IH He) as (e2 & K1 & K2). exists e2. split; [now right|exact K2]. }
    assert (New : forall e', In e' es' -> exists e, In e es /\ forall rho v, ev toR e rho v -> ev toR e' rho v).
    { clear -Fs E. intros e He. induction Fs as [|e1 e' es es' H Fs IH]; [destruct He|]. destruct He as [<-|He].
      - exists e1. split; [now left|]. intros rho v. exact (c12_simplify_value_partial num N toR E n prefer _ _ H rho v).
      - destruct (IH He) as (e2 & K1 & K2). exists e2. split; [now right|exact K2]. }
    split.
    + intros HX rho Hrho e He v Hev. destruct (Old e He) as (e' & He' & K).
      assert (HXr : forall x col, In (x, col) (l_vars s) -> X col = rho x).
      { intros x col Hin. symmetry. unfold X. apply Hrho. apply in_map_iff. exists (x, col). auto. }
      pose proof (proj1 (Iff rho X HXr) HX e' He') as Z.
      exact (ev_fun toR _ _ _ _ (K rho v Hev) Z).
    + intros Uniq rho Hrho v c Hin. apply in_map_iff in Hin. destruct Hin as ([x col] & Heq & Hin). cbn in Heq. injection Heq as <- <-.
      (* the assignment as a vector *)
      set (Y := fun j => match find (fun kv => Nat.eqb (snd kv) j) (l_vars s) with Some (y, _) => rho y | None => 0%R end).
      assert (HY : forall y k, In (y, k) (l_vars s) -> Y k = rho y).
      { intros y k Hy. unfold Y. destruct (find (fun kv => Nat.eqb (snd kv) k) (l_vars s)) as [[z k']|] eqn:Fd.
        - apply find_some in Fd. cbn in Fd. destruct Fd as [F1 F2]. apply Nat.eqb_eq in F2. subst k'.
          clear -ND2 F1 Hy. revert ND2 F1 Hy. generalize (l_vars s) as m. induction m as [|[u w] m IH]; cbn; [tauto|].
          intros ND [F1|F1] [Hy|Hy]; inversion ND; subst; auto.
          + congruence.
          + injection F1 as <- <-. apply (in_map snd) in Hy. tauto.
          + injection Hy as <- <-. apply (in_map snd) in F1. tauto.
        - apply (find_none _ _ Fd) in Hy. cbn in Hy. rewrite Nat.eqb_refl in Hy. discriminate. }
      rewrite <- (HY x col Hin). apply Uniq; [|exact (proj1 (Col x col Hin))].
      apply (proj2 (Iff rho Y HY)). intros e' He'. destruct (New e' He') as (e & He & K). apply K. now apply Hrho.
Qed.
Print Assumptions c53_solution_partial.

(** The hypotheses hold of 2x + y - 4, x - y + 1: neither is changed. *)
Example c53_case :
  List.Forall2 (fun e e' => simp 12 false e = ([], Ok e')) c32_system
    [EAdd (EAdd (EMul (qr 2) (qv "x")) (qv "y")) (qr (-4)); EAdd (EAdd (qv "x") (EMul (qr (-1)) (qv "y"))) (qr 1)].
Proof. constructor; [vm_compute; reflexivity|]. constructor; [vm_compute; reflexivity|]. constructor. Qed.

(** SolveLinearSystems(MatrixXXD&): an n x (n+1) matrix is split into its
    first n columns and the last one; anything else gives the empty vector. *)
Theorem c53_augmented :
  forall (num : Type) (N : NumOps num) (solve : nat -> list num -> list num -> list num)
    (r c : nat) (d : list num) (f : nat -> nat -> num), is_matrix (EMat r c d) r c f ->
  (c = S r -> exists A b, solve_augmented solve r c d = Some (solve r A b) /\
     is_matrix (EMat r r A) r r f /\ length b = r /\ forall i, i < r -> nth_error b i = Some (f i r)) /\
  (c <> S r -> solve_augmented solve r c d = None).
Proof.
  intros num N solve r c d f (d' & E & L & H). injection E as <-. split.
  - intros ->. unfold solve_augmented. rewrite Nat.eqb_refl. eexists. eexists. split; [reflexivity|].
    destruct (mtab_nth r r (fun i j => mget (S r) d i j)) as [L' K]. split; [|split].
    + eexists. split; [reflexivity|]. split; [exact L'|]. intros i j Hi Hj. rewrite K by assumption. f_equal.
      apply (mget_matrix r (S r) d f H); lia.
    + now rewrite map_length, seq_length.
    + intros i Hi. erewrite map_nth_error; [|rewrite (nth_error_nth' _ 0) by (rewrite seq_length; exact Hi); rewrite seq_nth by exact Hi; reflexivity].
      f_equal. apply (mget_matrix r (S r) d f H); lia.
  - intros Hc. unfold solve_augmented. destruct c as [|c]; [reflexivity|]. replace (r =? c) with false; [reflexivity|].
    symmetry. apply Nat.eqb_neq. lia.
Qed.
Print Assumptions c53_augmented.

Example c53_augmented_case : solve_augmented (fun _ A b => A ++ b)%list 2 3 [1; 2; 5; 3; 4; 6]%Q = Some [1; 2; 3; 4; 5; 6]%Q.
Proof. reflexivity. Qed.
