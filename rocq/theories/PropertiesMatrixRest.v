(** Property C35, the other cases: equal matrices, and differences of matrices
    with different numbers of columns. *)
From Coq Require Import String Bool Arith ZArith QArith Lia List.
From Verif Require Import Base Num Expr Ghost Simplify Calculus QNum MonadProofs ZerosProofs PropertiesSimplify PropertiesMatrix PropertiesIdentities PropertiesSubst.
Import ListNotations.
Open Scope string_scope.
Open Scope nat_scope.

Section Rest.
  Context {num : Type} {N : NumOps num}.
  Notation E := (expr num).

  Lemma all_eqb_true (d1 d2 : list num) : length d1 = length d2 ->
    (forall k x y, nth_error d1 k = Some x -> nth_error d2 k = Some y -> n_eqb x y = true) -> all_eqb d1 d2 = true.
  Proof.
    revert d2. induction d1 as [|x d1 IH]; intros [|y d2] L H; try discriminate; [reflexivity|].
    cbn. rewrite (H 0 x y eq_refl eq_refl). apply IH; [now injection L|]. intros k u v Hu Hv. exact (H (S k) u v Hu Hv).
  Qed.
  Lemma entries_eqb r c (d1 d2 : list num) f g : length d1 = r * c -> length d2 = r * c ->
    (forall i j, i < r -> j < c -> nth_error d1 (i * c + j) = Some (f i j)) ->
    (forall i j, i < r -> j < c -> nth_error d2 (i * c + j) = Some (g i j)) ->
    (forall i j, i < r -> j < c -> n_eqb (f i j) (g i j) = true) -> all_eqb d1 d2 = true.
  Proof.
    intros L1 L2 H1 H2 H. apply all_eqb_true; [congruence|]. intros k x y Hx Hy.
    assert (Hk : k < r * c) by (rewrite <- L1; apply nth_error_Some; congruence).
    assert (Hc : c <> 0) by (intros ->; lia).
    assert (K : k = (k / c) * c + k mod c) by (rewrite Nat.mul_comm; apply Nat.div_mod; exact Hc).
    assert (Hi : k / c < r) by (apply Nat.div_lt_upper_bound; lia).
    assert (Hj : k mod c < c) by (apply Nat.mod_upper_bound; exact Hc).
    rewrite K in Hx, Hy. rewrite (H1 _ _ Hi Hj) in Hx. rewrite (H2 _ _ Hi Hj) in Hy. injection Hx as <-. injection Hy as <-. now apply H.
  Qed.

  Lemma equal_matrices (A B : E) r c f g : is_matrix A r c f -> is_matrix B r c g ->
    (forall i j, i < r -> j < c -> n_eqb (f i j) (g i j) = true) -> equals A B = Some true.
  Proof.
    intros (d1 & -> & L1 & H1) (d2 & -> & L2 & H2) H. cbn. now rewrite !Nat.eqb_refl, (entries_eqb r c d1 d2 f g).
  Qed.

  (** The difference of equal matrices: the number 0. *)
  Theorem c35_sub_equal (a b A B : E) r c f g : simplifies_to a A -> simplifies_to b B ->
    is_matrix A r c f -> is_matrix B r c g -> (forall i j, i < r -> j < c -> n_eqb (f i j) (g i j) = true) ->
    simplifies_to (ESub a b) (EReal (n_of_Z 0)).
  Proof.
    intros Ha Hb MA MB H. apply (c96_sub_equal a b A B Ha Hb); [|now apply (equal_matrices A B r c f g)].
    destruct MA as (d & -> & _). intros [x K]. discriminate.
  Qed.

  (** The product of equal matrices, square or not: a power. *)
  Theorem c35_mul_equal (a b A B : E) r c f g : simplifies_to a A -> simplifies_to b B ->
    is_matrix A r c f -> is_matrix B r c g -> (forall i j, i < r -> j < c -> n_eqb (f i j) (g i j) = true) ->
    simplifies_to (EMul a b) (EExp A (EReal (n_of_Z 2))).
  Proof.
    intros Ha Hb MA MB H. pose proof (equal_matrices A B r c f g MA MB H) as K.
    destruct MA as (d & -> & _). destruct MB as (d' & -> & _).
    apply (c96_mul_equal a b _ _ Ha Hb); try exact K; try discriminate; intros [x K']; discriminate.
  Qed.

  (** The difference of matrices with the same number of rows and different
      numbers of columns: undefined behaviour. *)
  Theorem c35_sub_columns (a b A B : E) r c1 c2 f g : simplifies_to a A -> simplifies_to b B ->
    is_matrix A r c1 f -> is_matrix B r c2 g -> c1 <> c2 ->
    exists k, forall n prefer, k <= n -> snd (simp n prefer (ESub a b)) = Undef EigenMismatch.
  Proof.
    intros [k1 Ha] [k2 Hb] (d1 & -> & L1 & H1) (d2 & -> & L2 & H2) Hc. exists (S (max k1 k2)). intros n prefer Hn. destruct n as [|n]; [lia|].
    cbn [simp simp_step]. unfold visit_sub.
    rewrite (snd_operands _ _ _ (EMat r c1 d1) (EMat r c2 d2)) by (first [apply Ha|apply Hb]; lia).
    apply Nat.eqb_neq in Hc.
    unfold sub_rules. rewrite rule_no by reflexivity. rewrite rule_no.
    2:{ unfold sub_368. rewrite (snd_bind _ _ _ (m_eq_mat _ _ _ _ _ _)), Hc, andb_false_r. reflexivity. }
    cbn [first_rule]. unfold sub_372 at 1. cbn [rcast binop_eqb commut]. rewrite !Nat.eqb_refl, Hc. reflexivity.
  Qed.
End Rest.
Print Assumptions c35_sub_equal.
Print Assumptions c35_mul_equal.
Print Assumptions c35_sub_columns.

(** (1 2) - (1 2), (1 2) * (1 2) and (1 2) - (1). *)
Example c35_rest_case :
  simplifies_to (EMat 1 2 [1; 2]%Q) (EMat 1 2 [1; 2]%Q) /\ simplifies_to (EMat 1 1 [1]%Q) (EMat 1 1 [1]%Q) /\
  is_matrix (EMat 1 2 [1; 2]%Q) 1 2 (fun _ j => if Nat.eqb j 0 then 1%Q else 2%Q) /\ is_matrix (EMat 1 1 [1]%Q) 1 1 (fun _ _ => 1%Q) /\
  (forall i j, i < 1 -> j < 2 -> n_eqb (if Nat.eqb j 0 then 1%Q else 2%Q) (if Nat.eqb j 0 then 1%Q else 2%Q) = true).
Proof.
  split; [fuel 1|]. split; [fuel 1|]. split; [|split].
  - eexists. split; [reflexivity|]. split; [reflexivity|]. intros [|i] [|[|j]] Hi Hj; try lia; reflexivity.
  - eexists. split; [reflexivity|]. split; [reflexivity|]. intros [|i] [|j] Hi Hj; try lia; reflexivity.
  - intros i [|[|j]] Hi Hj; try lia; reflexivity.
Qed.
