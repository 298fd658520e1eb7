(** Properties C01-C11 and C51: building, casting, comparing and editing
    expression trees. *)
From Coq Require Import String Bool Arith ZArith QArith Reals Lra Lia.
From Coquelicot Require Import Coquelicot.
From Coq Require Import List Permutation.
From Verif Require Import Base Num Expr Spec SpecEquals QNum TreeProofs SemProofs EqualsProofs.
Import ListNotations.
Open Scope string_scope.

Definition qreal (n : Z) : expr Q := EReal (inject_Z n).
Definition qvar (x : string) : expr Q := EVar x.

(** ** C01 *)
Theorem c01_build_flatten :
  forall (num : Type) (o : binop) (l : list (expr num)),
    List.Forall (not_node o) l ->
    (length l < 2 -> build o l = None)%nat /\
    (2 <= length l -> exists a b, build o l = Some (EBin o a b) /\ flatten o a b = l)%nat.
Proof. intros. now apply build_roundtrip. Qed.
Print Assumptions c01_build_flatten.

Example c01_case :
  build OAdd [qreal 1; qvar "x"; qvar "y"] = Some (EAdd (EAdd (qreal 1) (qvar "x")) (qvar "y")).
Proof. reflexivity. Qed.
Example c01_case_hyp : List.Forall (not_node OAdd) [qreal 1; qvar "x"; EMul (qvar "y") (qvar "x")].
Proof. repeat constructor; discriminate. Qed.

(** ** C02 *)
Theorem c02_build_balanced :
  forall (num : Type) (o : binop) (l : list (expr num)) t,
    build o l = Some t ->
    tree_over o (Nat.log2_up (length l)) l t /\ nodes_over o (length l - 1) l t.
Proof. intros. split; [now apply build_balanced|now apply build_nodes]. Qed.
Print Assumptions c02_build_balanced.

Example c02_case : exists t,
  build OMul [qvar "a"; qvar "b"; qvar "c"; qvar "d"; qvar "e"] = Some t.
Proof. eexists. reflexivity. Qed.

(** ** C03 *)
Theorem c03_build_value :
  forall (num : Type) (toR : num -> R) (l : list (expr num)) t rho v,
    (build OAdd l = Some t ->
     (ev toR t rho v <-> exists vs, List.Forall2 (fun e w => ev toR e rho w) l vs /\
                                    v = fold_right Cplus (RtoC 0) vs)) /\
    (build OMul l = Some t ->
     (ev toR t rho v <-> exists vs, List.Forall2 (fun e w => ev toR e rho w) l vs /\
                                    v = fold_right Cmult (RtoC 1) vs)).
Proof.
  intros. split; intros H.
  - exact (build_ev toR OAdd l t rho v (or_introl eq_refl) H).
  - exact (build_ev toR OMul l t rho v (or_intror eq_refl) H).
Qed.
Print Assumptions c03_build_value.

Theorem c03_nary_constructor :
  forall (num : Type) (o : binop) (a b : expr num) l, nary o a b l = build o (a :: b :: l).
Proof. intros. apply nary_build. Qed.
Print Assumptions c03_nary_constructor.

Example c03_case : exists t, build OAdd [qreal 1; qvar "x"; qreal 3] = Some t /\
  ev Q2R t (fun _ => 5%R) (RtoC 9).
Proof.
  eexists. split; [reflexivity|].
  apply (proj2 (proj1 (c03_build_value Q Q2R [qreal 1; qvar "x"; qreal 3] _ _ _) eq_refl)).
  exists [RtoC (Q2R 1); RtoC 5; RtoC (Q2R 3)]. split.
  - repeat constructor.
  - simpl. rewrite <- !RtoC_plus. f_equal. unfold Q2R. simpl. lra.
Qed.

(** ** C04 *)
Theorem c04_cast_reorders :
  forall (num : Type) (p : pat) (e r : expr num),
    rcast p e = Some r -> fits p r /\ reorders e r.
Proof. intros. now apply rcast_sound. Qed.
Print Assumptions c04_cast_reorders.

Theorem c04_cast_value :
  forall (num : Type) (toR : num -> R) (p : pat) (e r : expr num) rho v,
    rcast p e = Some r -> (ev toR e rho v <-> ev toR r rho v).
Proof. intros. now apply rcast_ev with p. Qed.
Print Assumptions c04_cast_value.

Example c04_case :
  rcast (PBin OAdd (PBin OMul PReal PAny) PVar) (EAdd (qvar "y") (EMul (qvar "x") (qreal 2)))
  = Some (EAdd (EMul (qreal 2) (qvar "x")) (qvar "y")).
Proof. reflexivity. Qed.

(** ** C05 *)
Theorem c05_cast_complete :
  forall (num : Type) (p : pat) (e : expr num),
    rcast p e = None <-> ~ exists r, reorders e r /\ fits p r.
Proof. intros. apply rcast_none. Qed.
Print Assumptions c05_cast_complete.

Example c05_case : rcast (PBin OSub PVar PReal) (ESub (qreal 2) (qvar "x")) = None.
Proof. reflexivity. Qed.

(** ** C06: Equals is reflexive *)
Definition C06_statement : Prop :=
  forall (num : Type) (N : NumOps num) (e : expr num), equals e e = Some true.

Theorem c06_refuted : ~ C06_statement.
Proof. intros H. discriminate (H Q Q_ops EUndef). Qed.
Print Assumptions c06_refuted.

(** Missing for the full property: Undefined, and literals that are NaN. *)
Theorem c06_equals_reflexive_partial :
  forall (num : Type) (N : NumOps num) (e : expr num),
    no_undef e -> no_nan e -> equals e e = Some true.
Proof. intros. now apply equals_refl. Qed.
Print Assumptions c06_equals_reflexive_partial.

Theorem c06_nan_not_reflexive :
  forall (num : Type) (N : NumOps num) (c : num),
    n_eqb c c = false -> equals (EReal c) (EReal c) = Some false.
Proof. intros num N c H. unfold equals. simpl. now rewrite H. Qed.
Print Assumptions c06_nan_not_reflexive.

Example c06_case : no_undef (EAdd (EMul (qreal 2) EPi) (qvar "x")) /\
                   no_nan (EAdd (EMul (qreal 2) EPi) (qvar "x")).
Proof. split; repeat split; discriminate. Qed.

(** ** C07: Equals is symmetric *)
Definition C07_statement : Prop :=
  forall (num : Type) (N : NumOps num) (a b : expr num),
    (forall x y : num, n_eqb x y = n_eqb y x) -> equals a b = equals b a.

Theorem c07_refuted : ~ C07_statement.
Proof.
  intros H.
  assert (Hs : forall x y : Q, n_eqb x y = n_eqb y x) by (intros; apply Qeq_bool_comm).
  discriminate (H Q Q_ops (EAdd (qvar "x") (qvar "y")) (EAdd (EAdd (qvar "x") (qvar "y")) (qvar "z")) Hs).
Qed.
Print Assumptions c07_refuted.

(** Missing: trees with associative nodes, for which the answer really depends
    on the order of the arguments, and Pi, whose comparison throws. *)
Theorem c07_equals_symmetric_partial :
  forall (num : Type) (N : NumOps num) (a b : expr num),
    (forall x y : num, n_eqb x y = n_eqb y x) ->
    no_assoc a -> no_pi a -> no_assoc b -> no_pi b -> equals a b = equals b a.
Proof. intros. now apply equals_sym_plain. Qed.
Print Assumptions c07_equals_symmetric_partial.

Example c07_case : no_assoc (ESub (qvar "x") (EExp (qvar "y") (qreal 2))) /\
                   no_pi (ESub (qvar "x") (EExp (qvar "y") (qreal 2))).
Proof.
  split; repeat split; try discriminate;
    intros o a b E; injection E as <- <- <-; intros [F|[F|F]]; discriminate.
Qed.

(** ** C08: Equal expressions have equal values *)
Definition C08_statement : Prop :=
  forall (num : Type) (N : NumOps num) (toR : num -> R) (a b : expr num) rho v,
    Exact N toR -> equals a b = Some true -> (ev toR a rho v <-> ev toR b rho v).

Theorem c08_refuted : ~ C08_statement.
Proof.
  intros H.
  pose (rho := fun x : string => if String.eqb x "x" then 1%R else 0%R).
  pose (a := EAdd (EAdd (qvar "x") (qvar "x")) (qvar "y")).
  pose (b := EAdd (EAdd (qvar "x") (qvar "y")) (qvar "y")).
  assert (Ha : ev Q2R a rho (Cplus (Cplus (RtoC 1) (RtoC 1)) (RtoC 0))).
  { simpl. repeat eexists. }
  assert (Hb : ev Q2R b rho (Cplus (Cplus (RtoC 1) (RtoC 0)) (RtoC 0))).
  { simpl. repeat eexists. }
  apply (H Q Q_ops Q2R a b rho _ Q_exact eq_refl) in Ha.
  pose proof (ev_fun Q2R _ _ _ _ Ha Hb) as E.
  rewrite <- !RtoC_plus in E. apply RtoC_inj in E. lra.
Qed.
Print Assumptions c08_refuted.

(** Missing: trees whose sums or products differ as multisets of operands. *)
Theorem c08_equals_value_partial :
  forall (num : Type) (N : NumOps num) (toR : num -> R) (a b : expr num) rho v,
    Exact N toR -> no_assoc a -> equals a b = Some true -> (ev toR a rho v <-> ev toR b rho v).
Proof.
  intros num N toR a b rho v HE Ha H.
  apply (equals_ev_plain toR (fun x y => proj1 (ex_eqb N toR HE x y))); auto.
Qed.
Print Assumptions c08_equals_value_partial.

Example c08_case :
  no_assoc (ESub (qvar "x") (qreal 2)) /\
  equals (ESub (qvar "x") (qreal 2)) (ESub (qvar "x") (EReal (4 # 2)%Q)) = Some true.
Proof.
  split; [|reflexivity]. repeat split; intros o a b E; inversion E; subst; intros [F|[F|F]]; discriminate.
Qed.

(** What Equals looks at: whether every operand of a sum or product occurs in
    the other one. *)
Theorem c08_meaning :
  forall (num : Type) (N : NumOps num) (a b : expr num),
    no_pi a -> (equals a b = Some true <-> covered a b).
Proof. intros num N a b Ha. exact (le_covered (esize a) a b (le_n _) Ha). Qed.
Print Assumptions c08_meaning.

(** [==] on literals. *)
Definition symmetric_literals {num : Type} (N : NumOps num) : Prop :=
  forall x y : num, n_eqb x y = n_eqb y x.
Definition transitive_literals {num : Type} (N : NumOps num) : Prop :=
  forall x y z : num, n_eqb x y = true -> n_eqb y z = true -> n_eqb x z = true.
Lemma exact_literals {num : Type} (N : NumOps num) (toR : num -> R) : Exact N toR -> symmetric_literals N /\ transitive_literals N.
Proof.
  intros HE. split.
  - intros x y. destruct (n_eqb x y) eqn:E1, (n_eqb y x) eqn:E2; try reflexivity; exfalso.
    + apply (ex_eqb N toR HE) in E1. symmetry in E1. apply (ex_eqb N toR HE) in E1. congruence.
    + apply (ex_eqb N toR HE) in E2. symmetry in E2. apply (ex_eqb N toR HE) in E2. congruence.
  - intros x y z H1 H2. apply (ex_eqb N toR HE) in H1, H2. apply (ex_eqb N toR HE). congruence.
Qed.

(** Missing: expressions that are Equal one way only, and sums and products
    one of whose operands Equals another one. *)
Theorem c08_both_ways_partial :
  forall (num : Type) (N : NumOps num) (toR : num -> R) (a b : expr num) rho v,
    Exact N toR -> no_pi a -> no_pi b -> tidy a -> tidy b ->
    equals a b = Some true -> equals b a = Some true -> (ev toR a rho v <-> ev toR b rho v).
Proof.
  intros num N toR a b rho v HE Pa Pb Ta Tb H1 H2. destruct (exact_literals N toR HE) as [Sy Tr].
  apply (rearranged_value toR (fun x y => proj1 (ex_eqb N toR HE x y))).
  exact (both_rearranged Tr (esize a) a b (le_n _) Pa Pb Ta Tb H1 H2).
Qed.
Print Assumptions c08_both_ways_partial.

(* (x + y*2) - z and (2*y + x) - z *)
Example c08_both_ways_case :
  let a := ESub (EAdd (qvar "x") (EMul (qvar "y") (qreal 2))) (qvar "z") in
  let b := ESub (EAdd (EMul (qreal 2) (qvar "y")) (qvar "x")) (qvar "z") in
  no_pi a /\ no_pi b /\ tidy a /\ tidy b /\ equals a b = Some true /\ equals b a = Some true.
Proof.
  cbv zeta. repeat apply conj; try reflexivity; try discriminate; try exact I;
    intros _; repeat constructor; discriminate.
Qed.

(** ** C09 *)
Theorem c09_equals_permutation :
  forall (num : Type) (N : NumOps num) (o : binop) (a b a' b' : expr num),
    commutative o ->
    no_pi (EBin o a b) -> no_undef (EBin o a b) -> no_nan (EBin o a b) ->
    Permutation (flatten o a b) (flatten o a' b') ->
    equals (EBin o a b) (EBin o a' b') = Some true.
Proof. intros. now apply equals_perm. Qed.
Print Assumptions c09_equals_permutation.

Example c09_case :
  Permutation (flatten OAdd (EAdd (qvar "x") (qvar "y")) (qvar "z"))
              (flatten OAdd (qvar "z") (EAdd (qvar "x") (qvar "y"))) /\
  no_pi (EAdd (EAdd (qvar "x") (qvar "y")) (qvar "z")) /\
  no_undef (EAdd (EAdd (qvar "x") (qvar "y")) (qvar "z")) /\
  no_nan (EAdd (EAdd (qvar "x") (qvar "y")) (qvar "z")).
Proof.
  split; [|repeat split; discriminate].
  cbn. exact (Permutation_sym (Permutation_cons_append [qvar "x"; qvar "y"] (qvar "z"))).
Qed.

(** At every depth. *)
Theorem c09_rearranged :
  forall (num : Type) (N : NumOps num) (a b : expr num),
    symmetric_literals N -> transitive_literals N ->
    no_pi a -> no_undef a -> no_nan a -> rearranged a b ->
    equals a b = Some true /\ equals b a = Some true.
Proof. intros num N a b Sy Tr Pa Ua Na H. apply (rearranged_both Sy Tr a b H). repeat split; assumption. Qed.
Print Assumptions c09_rearranged.

(** Where operands can be told apart, nothing else is Equal both ways. *)
Theorem c09_exact :
  forall (num : Type) (N : NumOps num) (a b : expr num),
    symmetric_literals N -> transitive_literals N ->
    no_pi a -> no_undef a -> no_nan a -> no_pi b -> tidy a -> tidy b ->
    (equals a b = Some true /\ equals b a = Some true <-> rearranged a b).
Proof.
  intros num N a b Sy Tr Pa Ua Na Pb Ta Tb. split; [intros [H1 H2]|now apply c09_rearranged].
  exact (both_rearranged Tr (esize a) a b (le_n _) Pa Pb Ta Tb H1 H2).
Qed.
Print Assumptions c09_exact.

Example c09_exact_case :
  symmetric_literals Q_ops /\ transitive_literals Q_ops /\
  rearranged (EExp (EAdd (qvar "x") (EMul (qvar "y") (EMul (qvar "z") (qreal 2)))) (qreal 3))
             (EExp (EAdd (EMul (EMul (qvar "y") (qvar "z")) (EReal (4 # 2)%Q)) (qvar "x")) (qreal 3)).
Proof.
  destruct (exact_literals Q_ops Q2R Q_exact) as [Sy Tr]. split; [exact Sy|]. split; [exact Tr|].
  apply ra_bin; [|apply ra_refl]. eapply ra_trans; [apply ra_comm; now left|]. apply ra_bin; [|apply ra_refl].
  eapply ra_trans; [apply ra_sym, ra_assoc; right; now left|]. apply ra_bin; [apply ra_refl|]. now apply ra_real.
Qed.

(** The hypothesis on Pi cannot be dropped. *)
Theorem c09_pi_refuted :
  ~ forall (num : Type) (N : NumOps num) (o : binop) (a b a' b' : expr num),
      commutative o -> Permutation (flatten o a b) (flatten o a' b') ->
      no_undef (EBin o a b) -> no_nan (EBin o a b) ->
      equals (EBin o a b) (EBin o a' b') = Some true.
Proof.
  intros H.
  assert (E : equals (EAdd (qvar "x") EPi) (EAdd EPi (qvar "x")) = Some true).
  { apply H; [now left|apply perm_swap|repeat split; discriminate|repeat split]. }
  vm_compute in E. discriminate E.
Qed.
Print Assumptions c09_pi_refuted.

(** ** C10: Equals never throws *)
Definition C10_statement : Prop :=
  forall (num : Type) (N : NumOps num) (a b : expr num), equals a b <> None.

Theorem c10_refuted : ~ C10_statement.
Proof. intros H. exact (H Q Q_ops EPi (qvar "x") eq_refl). Qed.
Print Assumptions c10_refuted.

(** Missing: receivers that contain Pi. *)
Theorem c10_equals_total_partial :
  forall (num : Type) (N : NumOps num) (a b : expr num), no_pi a -> equals a b <> None.
Proof. intros. now apply equals_total. Qed.
Print Assumptions c10_equals_total_partial.

Example c10_case : no_pi (EAdd (qvar "x") EEuler).
Proof. repeat split; discriminate. Qed.

(** ** C11 *)
Theorem c11_structural_equivalence :
  forall (num : Type),
    (forall a : expr num, struct_equiv a a = true) /\
    (forall a b : expr num, struct_equiv a b = true -> struct_equiv b a = true) /\
    (forall a b c : expr num,
       struct_equiv a b = true -> struct_equiv b c = true -> struct_equiv a c = true).
Proof. intros. apply struct_equiv_equiv. Qed.
Print Assumptions c11_structural_equivalence.

Theorem c11_equals_implies_structure :
  forall (num : Type) (N : NumOps num) (a b : expr num),
    no_assoc a -> equals a b = Some true -> struct_equiv a b = true.
Proof. intros. now apply equals_struct_equiv. Qed.
Print Assumptions c11_equals_implies_structure.

Theorem c11_meaning :
  forall (num : Type) (a b : expr num), struct_equiv a b = true <-> same_shape a b.
Proof. intros. apply struct_equiv_shape. Qed.
Print Assumptions c11_meaning.

Example c11_case : struct_equiv (EAdd (qreal 1) (qreal 2)) (EAdd (qreal 2) (qreal 1)) = true /\
                   struct_equiv (EAdd (qreal 1) (qreal 2)) (EAdd (qreal 2) (qvar "x")) = false.
Proof. split; reflexivity. Qed.

(** ** C68: Equals is transitive *)
Definition C68_statement : Prop :=
  forall (num : Type) (N : NumOps num) (a b c : expr num), transitive_literals N ->
    equals a b = Some true -> equals b c = Some true -> equals a c = Some true.

(** x+(x+pi) equals pi+x, which equals pi+(x+x); comparing the first with the
    last throws. *)
Theorem c68_refuted : ~ C68_statement.
Proof.
  intros H. specialize (H Q Q_ops (EAdd (qvar "x") (EAdd (qvar "x") EPi)) (EAdd EPi (qvar "x")) (EAdd EPi (EAdd (qvar "x") (qvar "x")))).
  assert (E := H (proj2 (exact_literals Q_ops Q2R Q_exact)) eq_refl eq_refl). vm_compute in E. discriminate E.
Qed.
Print Assumptions c68_refuted.

(** Missing: receivers that contain Pi. *)
Theorem c68_transitive_partial :
  forall (num : Type) (N : NumOps num) (a b c : expr num), transitive_literals N -> no_pi a ->
    equals a b = Some true -> equals b c = Some true -> equals a c = Some true.
Proof. intros num N a b c Tr Pa H1 H2. exact (le_trans Tr (esize a) a b c (le_n _) Pa H1 H2). Qed.
Print Assumptions c68_transitive_partial.

Example c68_case :
  let a := EAdd (qvar "x") (qvar "y") in let b := EAdd (qvar "y") (EAdd (qvar "z") (qvar "x")) in
  let c := EAdd (EAdd (qvar "z") (EReal (1 # 2)%Q)) (EAdd (qvar "x") (qvar "y")) in
  transitive_literals Q_ops /\ no_pi a /\ equals a b = Some true /\ equals b c = Some true.
Proof.
  cbv zeta. split; [exact (proj2 (exact_literals Q_ops Q2R Q_exact))|]. repeat split; discriminate.
Qed.

(** ** C51 *)
Theorem c51_set_most :
  forall (num : Type) (p : pat) (o : binop) (a b x : expr num),
    (snd (set_most p o a b x) = true /\
       exists x', fits p x' /\ reorders x x' /\ fst (set_most p o a b x) = EBin o x' b
                  /\ (fits p x -> x' = x)) \/
    (snd (set_most p o a b x) = false /\ fst (set_most p o a b x) = EBin o a b /\
       ~ exists x', reorders x x' /\ fits p x').
Proof. intros. apply set_most_spec. Qed.
Print Assumptions c51_set_most.

Theorem c51_set_least :
  forall (num : Type) (p : pat) (o : binop) (a b x : expr num),
    (snd (set_least p o a b x) = true /\
       exists x', fits p x' /\ reorders x x' /\ fst (set_least p o a b x) = EBin o a x'
                  /\ (fits p x -> x' = x)) \/
    (snd (set_least p o a b x) = false /\ fst (set_least p o a b x) = EBin o a b /\
       ~ exists x', reorders x x' /\ fits p x').
Proof. intros. apply set_least_spec. Qed.
Print Assumptions c51_set_least.

Example c51_case :
  set_most (PBin OAdd PReal PVar) OMul (EAdd (qreal 1) (qvar "x")) (qvar "y")
           (EAdd (qvar "z") (qreal 2))
  = (EMul (EAdd (qreal 2) (qvar "z")) (qvar "y"), true) /\
  set_least PReal OMul (qvar "x") (qreal 3) (qvar "y") = (EMul (qvar "x") (qreal 3), false).
Proof. split; reflexivity. Qed.
