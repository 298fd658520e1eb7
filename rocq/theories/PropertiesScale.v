(** Property C95: a number times a matrix, and the negation of a matrix. *)
From Coq Require Import String Bool Arith ZArith QArith Reals Lra Lia List.
From Verif Require Import Base Num QNum Expr Simplify Calculus Spec PropertiesSimplify PropertiesMatrix.
Import ListNotations.
Open Scope nat_scope.
Open Scope list_scope.

(** ** C95: A number times a matrix multiplies every entry *)
Definition C95_statement : Prop :=
  forall (num : Type) (N : NumOps num) (toR : num -> R), Exact N toR ->
  forall (a b B : expr num) x r c f,
  simplifies_to a (EReal x) -> simplifies_to b B -> is_matrix B r c f ->
  exists m h, simplifies_to (EMul a b) m /\ simplifies_to (EMul b a) m /\ is_matrix m r c h /\
    forall i j, i < r -> j < c -> toR (h i j) = (toR x * toR (f i j))%R.

(** 0 times a matrix is the number 0. *)
Theorem c95_refuted : ~ C95_statement.
Proof.
  intros S. destruct (S Q Q_ops Q2R Q_exact (EReal 0%Q) (EMat 1 1 [1%Q]) (EMat 1 1 [1%Q]) 0%Q 1 1 (fun _ _ => 1%Q)) as (m & h & [k Hk] & _ & (d & -> & _) & _).
  - exists 1. intros [|n] prefer Hn; [lia|reflexivity].
  - exists 1. intros [|n] prefer Hn; [lia|reflexivity].
  - exists [1%Q]. repeat split. intros [|i] [|j] Hi Hj; try lia. reflexivity.
  - specialize (Hk (max k 2) false ltac:(lia)). destruct (max k 2) as [|[|n]] eqn:E; try lia. discriminate Hk.
Qed.
Print Assumptions c95_refuted.

Section Scale.
  Context {num : Type} {N : NumOps num}.

  Lemma mat_self r c (d : list num) n prefer : 1 <= n -> snd (simp n prefer (EMat r c d)) = Ok (EMat r c d).
  Proof. destruct n; [lia|reflexivity]. Qed.
  Lemma mul_lit_mat x r c (d : list num) (a b : expr num) n prefer : n_leb (n_abs x) n_eps = false -> 1 <= n ->
    a = EReal x /\ b = EMat r c d \/ a = EMat r c d /\ b = EReal x ->
    snd (first_rule (mul_rules (simp n prefer) prefer) (mul_rest (simp n prefer)) a b) =
      Ok (EMat r c (if n_eqb x n1 then d else map (fun y => n_mul y x) d)).
  Proof.
    intros T Hn H. unfold mul_rules. cbn [first_rule].
    assert (K : mul_478 (simp n prefer) a b = if n_eqb x n1 then yesM (simp n prefer (EMat r c d)) else no).
    { destruct H as [[-> ->]|[-> ->]]; unfold mul_478; cbn [rcast binop_eqb commut]; unfold tiny; rewrite T; reflexivity. }
    rewrite K. destruct (n_eqb x n1).
    - destruct n as [|n]; [lia|]. reflexivity.
    - destruct H as [[-> ->]|[-> ->]]; reflexivity.
  Qed.
  Lemma scale_matrix x r c (d : list num) f : length d = r * c ->
    (forall i j, i < r -> j < c -> nth_error d (i * c + j) = Some (f i j)) ->
    is_matrix (EMat r c (if n_eqb x n1 then d else map (fun y => n_mul y x) d)) r c
      (fun i j => if n_eqb x n1 then f i j else n_mul (f i j) x).
  Proof.
    intros L H. eexists. split; [reflexivity|]. destruct (n_eqb x n1); [now split|]. split; [now rewrite map_length|].
    intros i j Hi Hj. now rewrite (map_nth_error _ _ _ (H i j Hi Hj)).
  Qed.
  Lemma product_runs a b A B r : simplifies_to a A -> simplifies_to b B ->
    (forall n prefer, 1 <= n -> snd (first_rule (mul_rules (simp n prefer) prefer) (mul_rest (simp n prefer)) A B) = Ok r) ->
    simplifies_to (EMul a b) r.
  Proof.
    intros [k1 H1] [k2 H2] H. exists (S (S (max k1 k2))). intros n prefer Hn. destruct n as [|n]; [lia|].
    cbn [simp simp_step]. unfold visit_mul. rewrite (snd_operands _ _ _ A B); [apply H; lia|apply H1; lia|apply H2; lia].
  Qed.
End Scale.

(** Proved, for any arithmetic, for numbers that are not within EPSILON of 0:
    both orders give the matrix whose entries are multiplied; multiplication
    by 1 leaves them alone.  Missing: numbers that count as 0. *)
Theorem c95_scale_partial :
  forall (num : Type) (N : NumOps num) (a b B : expr num) x r c f,
  simplifies_to a (EReal x) -> simplifies_to b B -> is_matrix B r c f -> n_leb (n_abs x) n_eps = false ->
  exists m, simplifies_to (EMul a b) m /\ simplifies_to (EMul b a) m /\
    is_matrix m r c (fun i j => if n_eqb x n1 then f i j else n_mul (f i j) x).
Proof.
  intros num N a b B x r c f Ha Hb (d & -> & L & H) T. eexists. split; [|split; [|exact (scale_matrix x r c d f L H)]].
  - apply (product_runs _ _ _ _ _ Ha Hb). intros n prefer Hn. apply mul_lit_mat; auto.
  - apply (product_runs _ _ _ _ _ Hb Ha). intros n prefer Hn. apply mul_lit_mat; auto.
Qed.
Print Assumptions c95_scale_partial.

Theorem c95_exact_partial :
  forall (num : Type) (N : NumOps num) (toR : num -> R), Exact N toR ->
  forall (a b B : expr num) x r c f,
  simplifies_to a (EReal x) -> simplifies_to b B -> is_matrix B r c f -> (toR n_eps < Rabs (toR x))%R ->
  exists m h, simplifies_to (EMul a b) m /\ simplifies_to (EMul b a) m /\ is_matrix m r c h /\
    forall i j, i < r -> j < c -> toR (h i j) = (toR x * toR (f i j))%R.
Proof.
  intros num N toR X a b B x r c f Ha Hb HB T. destruct (c95_scale_partial num N a b B x r c f Ha Hb HB) as (m & M1 & M2 & M3).
  - destruct (n_leb (n_abs x) n_eps) eqn:E; [|reflexivity]. apply (ex_leb _ _ X) in E. rewrite (ex_abs _ _ X) in E. lra.
  - eexists m, _. split; [exact M1|]. split; [exact M2|]. split; [exact M3|]. intros i j Hi Hj. cbv beta.
    destruct (n_eqb x n1) eqn:E; [|rewrite (ex_mul _ _ X); ring]. apply (ex_eqb _ _ X) in E. unfold n1 in E. rewrite (ex_of_Z _ _ X) in E. rewrite E. ring.
Qed.
Print Assumptions c95_exact_partial.

(** The negation of a matrix has the opposite entries. *)
Theorem c95_negation :
  forall (num : Type) (N : NumOps num) (toR : num -> R), Exact N toR -> (toR n_eps < 1)%R ->
  forall (b B : expr num) r c f, simplifies_to b B -> is_matrix B r c f ->
  exists m h, simplifies_to (ENeg b) m /\ is_matrix m r c h /\ forall i j, i < r -> j < c -> toR (h i j) = (- toR (f i j))%R.
Proof.
  intros num N toR X He b B r c f [k Hk] HB.
  assert (SB : simplifies_to B B) by (destruct HB as (d & -> & _); exists 1; intros n prefer; apply mat_self).
  assert (SM : simplifies_to (real (-1) : expr num) (real (-1))) by (exists 1; intros [|n] prefer Hn; [lia|reflexivity]).
  destruct (c95_exact_partial num N toR X (real (-1)) B B (n_of_Z (-1)) r c f SM SB HB) as (m & h & [k1 M1] & _ & M3 & M4).
  { rewrite (ex_of_Z _ _ X), Rabs_left; lra. }
  exists m, h. split; [|split; [exact M3|]].
  - exists (S (max k k1)). intros n prefer Hn. destruct n as [|n]; [lia|]. cbn [simp simp_step]. unfold visit_neg.
    rewrite (snd_bind _ _ B) by (apply Hk; lia). unfold m_value. specialize (M1 n prefer ltac:(lia)).
    destruct (simp n prefer (EMul (real (-1)) B)) as [t o]. cbn [snd] in M1. subst o. reflexivity.
  - intros i j Hi Hj. rewrite M4, (ex_of_Z _ _ X) by assumption. change (IZR (-1)) with (-1)%R. ring.
Qed.
Print Assumptions c95_negation.

Example c95_case : snd (simp 4 false (EMul (EMat 2 1 [1; 2]%Q) (EReal 3%Q))) = Ok (EMat 2 1 [3; 6]%Q) /\
  snd (simp 4 false (ENeg (EMat 2 1 [1; 2]%Q))) = Ok (EMat 2 1 [-1; -2]%Q) /\ (Q2R n_eps < Rabs (Q2R 3))%R /\ (Q2R n_eps < 1)%R.
Proof.
  split; [reflexivity|]. split; [reflexivity|]. assert (E : Q2R n_eps = (/ 8388608)%R) by (change (1 * / 8388608 = / 8388608)%R; lra).
  rewrite E. unfold Q2R. cbn. rewrite Rabs_right; lra.
Qed.
