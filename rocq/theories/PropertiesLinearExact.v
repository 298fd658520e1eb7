(** More about C33: exactly when the construction of the matrices works. *)
From Coq Require Import String Bool Arith ZArith QArith Lia List.
From Verif Require Import Base Num Expr Simplify Calculus FindZeros MatrixM Linear Spec QNum TreeProofs PropertiesLinear.
Import ListNotations.
Open Scope string_scope.
Open Scope nat_scope.

Section Exact.
  Context {num : Type} {N : NumOps num}.
  Notation S0 := (lin (num := num)).

  Lemma bind_snd {A B} (m : M A) (k : A -> M B) : snd (bind m k) = match snd m with Ok a => snd (k a) | Err e => Err e | Throw x => Throw x
    | Abort => Abort | Undef u => Undef u | OutOfFuel => OutOfFuel end.
  Proof. destruct m as [t [a|s| | | |]]; cbn; try reflexivity; destruct (k a); reflexivity. Qed.

  (* runs that succeed *)
  Lemma foldM_ok {A B} (f : A -> B -> M A) (P : A -> Prop) (Q : B -> A -> Prop) (le : A -> A -> Prop) :
    (forall a, le a a) -> (forall a b c, le a b -> le b c -> le a c) -> (forall x a b, le a b -> Q x a -> Q x b) ->
    (forall s x s', P s -> snd (f s x) = Ok s' -> P s' /\ le s s' /\ Q x s') ->
    forall l s s', P s -> snd (Linear.foldM f s l) = Ok s' -> P s' /\ le s s' /\ forall x, In x l -> Q x s'.
  Proof.
    intros Rf Tr Mo St. induction l as [|x l IH]; intros s s' Hs H; cbn [Linear.foldM] in H.
    - injection H as <-. repeat split; auto. intros x [].
    - rewrite bind_snd in H. destruct (snd (f s x)) as [s1|?| | | |] eqn:E; try discriminate.
      destruct (St s x s1 Hs E) as (H1 & L1 & Q1). destruct (IH s1 s' H1 H) as (H2 & L2 & Q2). repeat split; auto.
      + eapply Tr; eauto.
      + intros y [<-|Hy]; [now apply (Mo x s1 s')|auto].
  Qed.
  (* every run succeeds or is undefined *)
  Lemma foldM_or {A B} (f : A -> B -> M A) (R : ub -> Prop) :
    (forall s x, (exists s', snd (f s x) = Ok s') \/ exists u, snd (f s x) = Undef u /\ R u) ->
    forall l s, (exists s', snd (Linear.foldM f s l) = Ok s') \/ exists u, snd (Linear.foldM f s l) = Undef u /\ R u.
  Proof.
    intros H. induction l as [|x l IH]; intros s; cbn [Linear.foldM]; [left; now exists s|]. rewrite bind_snd.
    destruct (H s x) as [(s1 & E)|(u & E & Hu)]; rewrite E; [apply IH|right; now exists u].
  Qed.

  Definition known (s : S0) : list string := map fst (l_vars s).
  Definition cinv (n : nat) (s : S0) : Prop := vinv (known s) s /\ l_count s <= n.

  Lemma column_ok n row s x v s' : cinv n s -> snd (let (s, col) := column x s in set_A n row col v s) = Ok s' ->
    cinv n s' /\ incl (known s) (known s') /\ In x (known s').
  Proof.
    intros [I C] H. assert (I1 : vinv (x :: known s) s) by (constructor; try apply I; intros y Hy; now right).
    destruct (column x s) as [s1 col] eqn:E. destruct (column_spec (x :: known s) s x s1 col I1 (or_introl eq_refl) E) as (I2 & L & Hin & _ & _ & D).
    unfold set_A in H. destruct (Nat.ltb_spec col n) as [Lc|]; [|discriminate]. injection H as <-. unfold cinv, known. cbn [l_vars l_count].
    assert (Hx : In x (map fst (l_vars s1))) by (apply (in_map fst) in Hin; exact Hin).
    split; [split|split; [|exact Hx]].
    - constructor; cbn [l_vars l_count]; [apply I2|apply I2|apply incl_refl].
    - destruct D as [[_ ->]|(_ & -> & -> & _)]; lia.
    - destruct D as [[-> _]|(_ & _ & _ & ->)]; [apply incl_refl|]. rewrite map_app. now apply incl_appl, incl_refl.
  Qed.
  Lemma term_ok n row s t s' : cinv n s -> snd (lin_term n row s t) = Ok s' ->
    cinv n s' /\ incl (known s) (known s') /\ forall x, term_var t x -> In x (known s').
  Proof.
    intros I H. unfold lin_term in H. destruct (term_cases t) as [[c ->]|[[x ->]|[(c & x & [->| ->])|(H1 & H2 & H3 & H4)]]].
    - cbn in H. injection H as <-. split; [destruct I as [I C]; split; [constructor; apply I|exact C]|]. split; [apply incl_refl|]. intros x K. inversion K.
    - cbn [rcast as_real as_var] in H. destruct (column_ok n row s x n1 s' I H) as (A & B & C). repeat split; auto; try apply A. intros y K. inversion K; subst. exact C.
    - cbn [rcast binop_eqb commut as_real as_var as_realvar] in H. destruct (column_ok n row s x c s' I H) as (A & B & C). repeat split; auto; try apply A. intros y K. inversion K; subst. exact C.
    - cbn [rcast binop_eqb commut as_real as_var as_realvar] in H. destruct (column_ok n row s x c s' I H) as (A & B & C). repeat split; auto; try apply A. intros y K. inversion K; subst. exact C.
    - rewrite H1, H2, H3 in H. injection H as <-. split; [exact I|]. split; [apply incl_refl|]. intros x K. now destruct (H4 x).
  Qed.
  Lemma row_ok n s re s' : cinv n s -> snd (lin_row n s re) = Ok s' ->
    cinv n s' /\ incl (known s) (known s') /\ ((exists a b, snd re = EAdd a b) /\ forall x, has_var (snd re) x -> In x (known s')).
  Proof.
    intros I H. destruct re as [r e]. unfold lin_row in H. cbn [fst snd] in *.
    destruct e as [| | | | | | |o a b|]; try discriminate. destruct o; try discriminate. cbn [rcast pAdd binop_eqb] in H.
    destruct (foldM_ok (lin_term n r) (cinv n) (fun t s => forall x, term_var t x -> In x (known s)) (fun s s' => incl (known s) (known s'))) with (l := flatten OAdd a b) (s := s) (s' := s') as (A & B & C); auto.
    - intros s0. apply incl_refl.
    - intros s1 s2 s3. apply incl_tran.
    - intros s0 t s1 H0 H1. now apply (term_ok n r s0).
    - repeat split; auto; try apply A; eauto. intros x (t & Ht & Hx). now apply (C t).
  Qed.
  Lemma row_or n s re : (exists s', snd (lin_row n s re) = Ok s') \/ exists u, snd (lin_row n s re) = Undef u /\ (u = NullDeref \/ u = BadIndex).
  Proof.
    destruct re as [r e]. unfold lin_row. cbn [fst snd].
    destruct e as [| | | | | | |o a b|]; try (right; exists NullDeref; split; [reflexivity|now left]).
    destruct o; try (right; exists NullDeref; split; [reflexivity|now left]). cbn [rcast pAdd binop_eqb].
    apply foldM_or. intros s0 t. unfold lin_term.
    assert (K : forall x v, (exists s', snd (let (s, col) := column x s0 in set_A n r col v s) = Ok s') \/
      exists u, snd (let (s, col) := column x s0 in set_A n r col v s) = Undef u /\ (u = NullDeref \/ u = BadIndex)).
    { intros x v. destruct (column x s0) as [s1 col]. unfold set_A. destruct (col <? n); [left; eexists; reflexivity|right; exists BadIndex; split; [reflexivity|now right]]. }
    destruct (as_real _); [left; eexists; reflexivity|]. destruct (as_var _); [apply K|]. destruct (as_realvar _) as [[c x]|]; [apply K|left; eexists; reflexivity].
  Qed.
End Exact.

(** ConstructMatrices works if and only if every equation is a sum and there are
    at most as many variables as equations; otherwise its behaviour is
    undefined (a null pointer or an index out of range). *)
Theorem c33_exactly : forall (num : Type) (N : NumOps num) (es : list (expr num)),
  let good := (forall e, In e es -> exists a b, e = EAdd a b) /\
    exists vs, (forall e x, In e es -> has_var e x -> In x vs) /\ length vs <= length es in
  ((exists s, snd (construct_matrices es) = Ok s) <-> good) /\
  (~ good -> snd (construct_matrices es) = Undef NullDeref \/ snd (construct_matrices es) = Undef BadIndex).
Proof.
  intros num N es good.
  assert (A : (exists s, snd (construct_matrices es) = Ok s) <-> good).
  { split.
    - intros (s & H). unfold construct_matrices in H.
      destruct (foldM_ok (lin_row (length es)) (cinv (length es)) (fun re s => (exists a b, snd re = EAdd a b) /\ forall x, has_var (snd re) x -> In x (known s)) (fun s s' => incl (known s) (known s'))) with
        (l := combine (seq 0 (length es)) es)
        (s := {| l_A := repeat n0 (length es * length es); l_b := repeat n0 (length es); l_vars := []; l_count := 0 |} : lin (num := num))
        (s' := s) as (I & _ & C); auto.
      + intros s0. apply incl_refl.
      + intros s1 s2 s3. apply incl_tran.
      + intros x a b Hi [H1 H2]. split; [exact H1|]. intros y Hy. apply Hi. now apply H2.
      + intros s0 x s1 H0 H1. now apply (row_ok (length es) s0).
      + split; [constructor; cbn; [reflexivity|constructor|intros x []]|cbn; lia].
      + assert (K : forall e, In e es -> exists r, In (r, e) (combine (seq 0 (length es)) es)).
        { assert (G : forall (l : list (expr num)) k e, In e l -> exists r, In (r, e) (combine (seq k (length l)) l)).
          { induction l as [|y l IH]; intros k e He; [destruct He|]. cbn [length seq combine]. destruct He as [<-|He]; [exists k; now left|].
            destruct (IH (S k) e He) as (r & Hr). exists r. now right. }
          intros e. apply G. }
        split.
        * intros e He. destruct (K e He) as (r & Hr). apply (C (r, e) Hr).
        * exists (known s). split.
          -- intros e x He Hx. destruct (K e He) as (r & Hr). now apply (C (r, e) Hr).
          -- destruct I as [I Cn]. unfold known. rewrite map_length. pose proof (f_equal (@length nat) (v_cols _ _ I)) as L. rewrite map_length, seq_length in L. lia.
    - intros [G1 (vs & G2 & G3)]. destruct (c33_construct_partial num N es vs G1 G2 G3) as (s & E). exists s. now rewrite E. }
  split; [exact A|]. intros G. unfold construct_matrices in *.
  destruct (foldM_or (lin_row (length es)) (fun u => u = NullDeref \/ u = BadIndex) (row_or (length es)) (combine (seq 0 (length es)) es)
    {| l_A := repeat n0 (length es * length es); l_b := repeat n0 (length es); l_vars := []; l_count := 0 |}) as [K|(u & E & [->| ->])]; auto.
  now destruct G; apply A.
Qed.
Print Assumptions c33_exactly.

(** x + y = 0 alone has too many variables, with x - 1 = 0 it has not. *)
Example c33_exact_case : (exists s, snd (construct_matrices [EAdd (EVar "x") (EVar "y"); EAdd (EVar "x") (EReal 1%Q)]) = Ok s) /\
  snd (construct_matrices [EAdd (EVar "x") (EVar "y") : expr Q]) = Undef BadIndex.
Proof. split; [eexists|]; vm_compute; reflexivity. Qed.

(** A system that ConstructMatrices can handle. *)
Definition solvable_shape {num} (es : list (expr num)) : Prop :=
  (forall e, In e es -> exists a b, e = EAdd a b) /\
  exists vs, (forall e x, In e es -> has_var e x -> In x vs) /\ length vs <= length es.

Lemma mapM_value {num} {N : NumOps num} (S : expr num -> M (expr num)) es rs :
  List.Forall2 (fun e r => snd (S e) = Ok r) es rs -> snd (mapM (fun e => m_value (S e)) es) = Ok rs.
Proof.
  induction 1 as [|e r es rs H _ IH]; [reflexivity|]. cbn [mapM]. rewrite bind_snd.
  replace (snd (m_value (S e))) with (Ok r) by (destruct (S e) as [t o]; cbn in H; subst o; reflexivity).
  rewrite bind_snd, IH. reflexivity.
Qed.

(** The same for SolveLinearSystems, which simplifies the equations first:
    whether it works depends only on the simplified equations [rs]. *)
Theorem c33_solve_exactly : forall (num : Type) (N : NumOps num) (n : nat) (prefer : bool) solve (es rs : list (expr num)),
  List.Forall2 (fun e r => snd (simp n prefer e) = Ok r) es rs ->
  ((exists vals, snd (solve_linear_systems (simp n prefer) solve es) = Ok vals) <-> solvable_shape rs) /\
  (~ solvable_shape rs ->
     snd (solve_linear_systems (simp n prefer) solve es) = Undef NullDeref \/
     snd (solve_linear_systems (simp n prefer) solve es) = Undef BadIndex).
Proof.
  intros num N n prefer solve es rs F. pose proof (mapM_value _ _ _ F) as Hm.
  assert (E : snd (solve_linear_systems (simp n prefer) solve es) =
    match snd (construct_matrices rs) with
    | Ok s => Ok (map (fun kv => (fst kv, nth (snd kv) (solve (length rs) (l_A s) (l_b s)) n0)) (l_vars s))
    | Err m => Err m | Throw x => Throw x | Abort => Abort | Undef u => Undef u | OutOfFuel => OutOfFuel end).
  { unfold solve_linear_systems. rewrite bind_snd, Hm, bind_snd. destruct (snd (construct_matrices rs)); reflexivity. }
  destruct (c33_exactly num N rs) as [[A B] C]. split; [split|].
  - intros (vals & H). rewrite E in H. apply A. destruct (snd (construct_matrices rs)); try discriminate. eauto.
  - intros G. destruct (B G) as (s & Hs). rewrite E, Hs. eauto.
  - intros G. rewrite E. destruct (C G) as [-> | ->]; auto.
Qed.
Print Assumptions c33_solve_exactly.

(** x + y and y + 1 are their own simplifications and can be set up. *)
Example c33_solve_case :
  let es := [EAdd (EVar "x") (EVar "y"); EAdd (EVar "y") (EReal 1%Q)] in
  exists rs, List.Forall2 (fun e r => snd (simp 10 false e) = Ok r) es rs /\ solvable_shape rs.
Proof.
  cbv zeta. eexists. split.
  - constructor; [vm_compute; reflexivity|]. constructor; [vm_compute; reflexivity|constructor].
  - split.
    + intros e [<-|[<-|[]]]; eexists; eexists; reflexivity.
    + exists ["x"; "y"]. split; [|cbn; lia]. intros e x He (t & Ht & Hx).
      destruct He as [<-|[<-|[]]]; cbn in Ht; repeat (destruct Ht as [<-|Ht]); try destruct Ht; inversion Hx; subst; cbn; auto.
Qed.
