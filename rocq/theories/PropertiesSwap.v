(** Property C98: SwapOperands. *)
From Coq Require Import String Bool Arith ZArith QArith Reals Lra Lia.
From Coquelicot Require Import Coquelicot.
From Coq Require Import List.
From Verif Require Import Base Num Expr Spec QNum PowProofs SemProofs PropertiesSimplify PropertiesCalculus.
Import ListNotations.
Open Scope string_scope.

(** The operands of a node, as GetMostSigOp and GetLeastSigOp give them. *)
Definition left_of {num} (e : expr num) : option (expr num) := match e with EBin _ a _ => Some a | _ => None end.
Definition right_of {num} (e : expr num) : option (expr num) := match e with EBin _ _ b => Some b | _ => None end.

(** ** C98: SwapOperands exchanges the operands
    The operands are exchanged, and swapping again restores the node.  A sum
    or product keeps its value, a difference changes its sign, and a quotient
    that is not 0 becomes its inverse. *)
Theorem c98_exchanged :
  forall (num : Type) (o : binop) (a b : expr num),
  left_of (swap_operands o a b) = Some b /\ right_of (swap_operands o a b) = Some a /\
  (forall a' b', swap_operands o a b = EBin o a' b' -> swap_operands o a' b' = EBin o a b).
Proof. intros num o a b. split; [reflexivity|]. split; [reflexivity|]. intros a' b' H. injection H as <- <-. reflexivity. Qed.
Print Assumptions c98_exchanged.

Theorem c98_value_kept :
  forall (num : Type) (toR : num -> R) (a b : expr num) rho v o, o = OAdd \/ o = OMul ->
  ev toR (EBin o a b) rho v <-> ev toR (swap_operands o a b) rho v.
Proof.
  intros num toR a b rho v o [-> | ->]; cbn [swap_operands ev]; (split; intros (p & q & Hp & Hq & ->); exists q, p; (split; [exact Hq|split; [exact Hp|ring]])).
Qed.
Print Assumptions c98_value_kept.

Theorem c98_sign_changed :
  forall (num : Type) (toR : num -> R) (a b : expr num) rho v,
  ev toR (ESub a b) rho v <-> ev toR (swap_operands OSub a b) rho (Copp v).
Proof.
  intros num toR a b rho v. cbn [swap_operands ev]. split; intros (p & q & Hp & Hq & E); exists q, p; (split; [exact Hq|split; [exact Hp|]]).
  - rewrite E. ring.
  - replace v with (Copp (Copp v)) by ring. rewrite E. ring.
Qed.
Print Assumptions c98_sign_changed.

Theorem c98_inverted :
  forall (num : Type) (toR : num -> R) (a b : expr num) rho v, v <> RtoC 0 ->
  ev toR (EDiv a b) rho v <-> ev toR (swap_operands ODiv a b) rho (Cinv v).
Proof.
  intros num toR a b rho v Hv. cbn [swap_operands ev]. split; intros (p & q & Hp & Hq & H0 & E).
  - exists q, p. split; [exact Hq|]. split; [exact Hp|].
    assert (Np : p <> RtoC 0) by (intros ->; apply Hv; rewrite E; unfold Cdiv; ring).
    split; [exact Np|]. rewrite E. field. split; assumption.
  - exists q, p. split; [exact Hq|]. split; [exact Hp|].
    assert (Np : p <> RtoC 0).
    { intros ->. assert (K : (v * / v = 0)%C) by (rewrite E; unfold Cdiv; ring). rewrite Cinv_r in K by exact Hv. apply RtoC_inj in K. lra. }
    split; [exact Np|].
    assert (F : v = (/ (/ v))%C) by (field; split; [exact Hv|intros K; apply RtoC_inj in K; lra]). rewrite F, E. field. split; assumption.
Qed.
Print Assumptions c98_inverted.

Example c98_case : ev Q2R (EDiv (qr 3) (qv "x")) (at2 2 0) (RtoC (3 / 2)) /\ RtoC (3 / 2) <> RtoC 0 /\
  ev Q2R (EDiv (qv "x") (qr 3)) (at2 2 0) (Cinv (RtoC (3 / 2))).
Proof.
  assert (A : ev Q2R (EDiv (qr 3) (qv "x")) (at2 2 0) (RtoC (3 / 2))).
  { exists (RtoC 3), (RtoC 2). split; [simpl; now rewrite Q2R_Z|]. split; [reflexivity|]. split; [apply RtoC_neq; lra|]. apply RtoC_div. lra. }
  assert (B : RtoC (3 / 2) <> RtoC 0) by (apply RtoC_neq; lra).
  split; [exact A|]. split; [exact B|]. exact (proj1 (c98_inverted Q Q2R (qr 3) (qv "x") (at2 2 0) _ B) A).
Qed.
