(** Property C52 for polynomials: the operators + - * / on integer polynomials
    and products of powers, also when a program adds up terms one at a time. *)
From Coq Require Import String Bool Arith ZArith QArith Reals Lra Lia.
From Coquelicot Require Import Coquelicot.
From Coq Require Import List.
From Flocq Require Import Core BinarySingleNaN.
From Verif Require Import Base Num Expr Ghost Simplify Calculus Spec SpecPoly SpecProd QNum PowProofs TreeProofs MonadProofs FuelProofs ProdProofs ProdSem PolyProofs PolySem DoubleNum PropertiesSimplify PropertiesPoly PropertiesProd.
Import ListNotations.
Open Scope string_scope.
Open Scope Z_scope.
Open Scope list_scope.

(** The operator [o] applied to [a] and [b] returns [r], and no step of the
    run is flagged as suspicious. *)
Definition operator_gives {num} {N : NumOps num} (o : binop) (a b r : expr num) : Prop :=
  exists n0, forall n, (n0 <= n)%nat -> operator n o a b = ([], Ok r).

(** A program that starts with [a] and adds ([OAdd]) or subtracts ([OSub]) the
    given operands with the operators, one after the other, ends with [r]. *)
Inductive running {num} {N : NumOps num} : expr num -> list (binop * expr num) -> expr num -> Prop :=
| rn_nil a : running a [] a
| rn_step o a t s l r : operator_gives o a t s -> running s l r -> running a ((o, t) :: l) r.

(** The terms that a list of operands stands for. *)
Inductive operands_of {num} (lit : num -> Z -> Prop) : list (binop * expr num) -> list monomial -> Prop :=
| op_nil : operands_of lit [] []
| op_add e t l ts : term lit false e t -> operands_of lit l ts -> operands_of lit ((OAdd, e) :: l) (t :: ts)
| op_sub e k z l ts : term lit false e (k, z) -> operands_of lit l ts -> operands_of lit ((OSub, e) :: l) ((k, - z) :: ts).

Lemma gives_always {num} {N : NumOps num} o (a b r : expr num) : always false (EBin o a b) r -> operator_gives o a b r.
Proof. intros (n & H). exists n. intros m L. unfold operator. now rewrite (H m L). Qed.

Section Running.
  Context {num : Type} {N : NumOps num}.
  Variable lit : num -> Z -> Prop.
  Variable ok : Z -> Prop.
  Hypothesis IL : IntLits N lit ok.
  Notation expr := (expr num).

  Lemma plain_poly (e : expr) ts : plain lit false e ts -> poly lit ok false false e ts.
  Proof. induction 1; [now apply po_term|now apply po_add]. Qed.

  Lemma run_steps l ts : operands_of lit l ts -> forall (a : expr) ta, plain lit false a ta -> ok (weight (ta ++ ts)) ->
    l <> [] -> exists r, running a l r /\ res lit false r (ta ++ ts).
  Proof.
    induction 1 as [|e t l ts Ht Hl IH|e k z l ts Ht Hl IH]; intros a ta Ha Hw Hne; [now destruct Hne| |].
    - assert (P : poly lit ok false false (EAdd a e) (ta ++ [t])).
      { apply po_add; [now apply plain_poly|now apply po_term|right; left; reflexivity]. }
      assert (E : (ta ++ [t]) ++ ts = ta ++ t :: ts) by now rewrite <- app_assoc.
      rewrite <- E in *. rewrite weight_app in Hw. pose proof (weight_nonneg ts). pose proof (weight_nonneg (ta ++ [t])).
      assert (Hw1 : ok (weight (ta ++ [t]))) by (eapply (il_ok_le _ _ _ IL); [exact Hw|lia]).
      destruct (poly_yields lit ok IL false false _ _ P Hw1) as (s & Ys & tr & St & Rf).
      assert (G : operator_gives OAdd a e s) by now apply gives_always, yields_always.
      destruct l as [|u l].
      + inversion Hl; subst. exists s. rewrite app_nil_r. split; [eapply rn_step; [exact G|apply rn_nil]|]. now exists tr.
      + destruct (IH s tr (proj1 St)) as (r & Hr & tr' & S' & R').
        * rewrite weight_app. eapply (il_ok_le _ _ _ IL); [exact Hw|]. destruct Rf as (_ & _ & W & _). pose proof (weight_nonneg tr). lia.
        * discriminate.
        * exists r. split; [eapply rn_step; [exact G|exact Hr]|]. exists tr'. split; [exact S'|].
          eapply refines_trans; [exact R'|]. now apply refines_app; [|apply refines_refl].
    - assert (P : poly lit ok false false (ESub a e) (ta ++ scale (-1) [(k, z)])).
      { apply po_sub; [now apply plain_poly|now apply po_term|right; left; reflexivity|now left]. }
      assert (S1 : scale (-1) [(k, z)] = [(k, - z)]) by (cbn; do 2 f_equal; lia). rewrite S1 in P.
      assert (E : (ta ++ [(k, - z)]) ++ ts = ta ++ (k, - z) :: ts) by now rewrite <- app_assoc.
      rewrite <- E in *. rewrite weight_app in Hw. pose proof (weight_nonneg ts). pose proof (weight_nonneg (ta ++ [(k, - z)])).
      assert (Hw1 : ok (weight (ta ++ [(k, - z)]))) by (eapply (il_ok_le _ _ _ IL); [exact Hw|lia]).
      destruct (poly_yields lit ok IL false false _ _ P Hw1) as (s & Ys & tr & St & Rf).
      assert (G : operator_gives OSub a e s) by now apply gives_always, yields_always.
      destruct l as [|u l].
      + inversion Hl; subst. exists s. rewrite app_nil_r. split; [eapply rn_step; [exact G|apply rn_nil]|]. now exists tr.
      + destruct (IH s tr (proj1 St)) as (r & Hr & tr' & S' & R').
        * rewrite weight_app. eapply (il_ok_le _ _ _ IL); [exact Hw|]. destruct Rf as (_ & _ & W & _). pose proof (weight_nonneg tr). lia.
        * discriminate.
        * exists r. split; [eapply rn_step; [exact G|exact Hr]|]. exists tr'. split; [exact S'|].
          eapply refines_trans; [exact R'|]. now apply refines_app; [|apply refines_refl].
  Qed.
End Running.

(** The sum or difference of two polynomials, where the sum itself is in the
    class of C58, has the like terms combined and the value of a + b or a - b. *)
Theorem c52_polynomials : forall (num : Type) (N : NumOps num) lit ok, IntLits N lit ok ->
  forall toR, (forall c z, lit c z -> toR c = IZR z) ->
  forall post o (a b : expr num) ts, poly lit ok false post (EBin o a b) ts -> ok (weight ts) ->
  exists r, operator_gives o a b r /\ (forall rho v, ev toR (EBin o a b) rho v -> ev toR r rho v) /\
    (two_left ts -> exists l, tree_over OAdd (Nat.log2_up (length l)) l r /\ combined lit l ts).
Proof.
  intros num N lit ok IL toR HR post o a b ts He Hw.
  destruct (c58_value num N lit ok IL toR HR false post _ ts He Hw) as (r & A & V).
  exists r. split; [now apply gives_always|]. split; [exact V|]. intros H2.
  destruct (c58_like_terms_partial num N lit ok IL false post _ ts He Hw H2) as (l & r' & A' & T & C).
  rewrite (always_fun false _ r r' A A'). eauto.
Qed.
Print Assumptions c52_polynomials.

(** What the program has computed, written as one expression. *)
Definition chain {num} (a : expr num) (l : list (binop * expr num)) : expr num :=
  fold_left (fun s p => EBin (fst p) s (snd p)) l a.

Lemma chain_polynomial {num} (lit : num -> Z -> Prop) l ts : operands_of lit l ts ->
  forall (a : expr num) ta, poly lit any true false a ta -> poly lit any true false (chain a l) (ta ++ ts).
Proof.
  induction 1 as [|e t l ts Ht Hl IH|e k z l ts Ht Hl IH]; intros a ta Ha; cbn [chain fold_left fst snd].
  - now rewrite app_nil_r.
  - change (ta ++ t :: ts) with (ta ++ [t] ++ ts). rewrite app_assoc. apply IH.
    apply po_add; [exact Ha|now apply po_term|right; left; reflexivity].
  - change (ta ++ (k, - z) :: ts) with (ta ++ [(k, - z)] ++ ts). rewrite app_assoc. apply IH.
    assert (S1 : [(k, - z)] = scale (-1) [(k, z)]) by (cbn; do 2 f_equal; lia). rewrite S1.
    apply po_sub; [exact Ha|now apply po_term|right; left; reflexivity|now left].
Qed.

(** Adding and subtracting terms one at a time with the operators: the result
    has the value of the whole chain, and like terms are combined, whatever
    was combined or cancelled on the way. *)
Theorem c52_running : forall (num : Type) (N : NumOps num) lit ok, IntLits N lit ok ->
  forall toR, (forall c z, lit c z -> toR c = IZR z) ->
  forall (a : expr num) t l ts, term lit false a t -> operands_of lit l ts -> l <> [] -> ok (weight (t :: ts)) ->
  exists r, running a l r /\ (forall rho v, ev toR (chain a l) rho v -> ev toR r rho v) /\
    (two_left (t :: ts) -> exists s, tree_over OAdd (Nat.log2_up (length s)) s r /\ combined lit s (t :: ts)).
Proof.
  intros num N lit ok IL toR HR a t l ts Ha Hl Hne Hw.
  destruct (run_steps lit ok IL l ts Hl a [t] (pl_term _ _ _ _ Ha) Hw Hne) as (r & Hr & tr & (P & St) & Rf).
  exists r. split; [exact Hr|]. split.
  - intros rho v Hv.
    destruct (ev_poly lit any toR HR rho true false _ _ (chain_polynomial lit l ts Hl a [t] (po_term _ _ _ _ _ _ Ha)) v Hv) as [Ko ->].
    destruct Rf as (T & K & _). rewrite <- (csum_totals rho tr ([t] ++ ts) T). apply (ev_plain lit toR HR rho false r tr P). auto.
  - intros H2. destruct St as (s & B & F & D); [now apply (refines_two_left _ _ Rf)|].
    exists s. split; [now apply build_balanced|]. exists tr. split; [exact F|]. split; [exact D|apply Rf].
Qed.
Print Assumptions c52_running.

(** The running result is determined. *)
Lemma running_fun {num} {N : NumOps num} (a : expr num) l r r' : running a l r -> running a l r' -> r = r'.
Proof.
  intros H. revert r'. induction H as [a|o a t s l r G H IH]; intros r' K; inversion K; subst; [reflexivity|].
  apply IH. destruct G as (n & G), H5 as (m & G'). specialize (G (n + m)%nat ltac:(lia)). specialize (G' (n + m)%nat ltac:(lia)).
  rewrite G in G'. now injection G' as ->.
Qed.

(** In IEEE doubles, if the coefficients stay within 2^53. *)
Theorem c52_doubles : forall pw lg pwx lgx, let N := double_ops pw lg pwx lgx in
  forall (a : expr double) t l ts, term d_int false a t -> operands_of d_int l ts -> l <> [] -> weight (t :: ts) <= 2 ^ 53 ->
  exists r, running a l r /\ (forall rho v, ev B2R (chain a l) rho v -> ev B2R r rho v) /\
    (two_left (t :: ts) -> exists s, tree_over OAdd (Nat.log2_up (length s)) s r /\ combined d_int s (t :: ts)).
Proof.
  intros pw lg pwx lgx N a t l ts Ha Hl Hne Hw.
  refine (c52_running double N d_int d_ok (double_ints pw lg pwx lgx) B2R (fun c z H => proj2 H) a t l ts Ha Hl Hne _).
  unfold d_ok. pose proof (weight_nonneg (t :: ts)). lia.
Qed.
Print Assumptions c52_doubles.

(** x + 3*x^2 - x + 4 + x - 4*x^2 *)
Definition steps : list (binop * expr double) :=
  [(OAdd, EMul (dr 3) (EExp (EVar "x") (dr 2))); (OSub, EVar "x"); (OAdd, dr 4); (OAdd, EVar "x"); (OSub, EMul (dr 4) (EExp (EVar "x") (dr 2)))].
Definition step_terms : list monomial :=
  [(Some ("x", 2), 3); (Some ("x", 1), -1); (None, 4); (Some ("x", 1), 1); (Some ("x", 2), -4)].
Example c52_running_case : term d_int false (EVar "x") (Some ("x", 1), 1) /\ operands_of d_int steps step_terms /\ steps <> [] /\
  weight ((Some ("x", 1), 1) :: step_terms) <= 2 ^ 53 /\ two_left ((Some ("x", 1), 1) :: step_terms).
Proof.
  assert (S2 : forall z, (Z.abs z <=? 2 ^ 53) = true -> term d_int false (EMul (dr z) (EExp (EVar "x") (dr 2))) (Some ("x", 2), z)).
  { intros z Hz. eapply tm_scaled; [now apply d_lit| |apply ml_pre]. apply pw_exp; [now apply d_lit|discriminate|discriminate]. }
  assert (X : term d_int false (EVar "x") (Some ("x", 1), 1)) by apply tm_power, pw_var.
  split; [exact X|]. split; [|split; [discriminate|split; [vm_compute; discriminate|]]].
  - unfold steps, step_terms. apply op_add; [now apply S2|]. apply (op_sub _ _ _ 1); [exact X|].
    apply op_add; [apply tm_const; now apply d_lit|]. apply op_add; [exact X|]. apply (op_sub _ _ _ 4); [now apply S2|]. apply op_nil.
  - exists None, (Some ("x", 1)). split; [discriminate|]. split; discriminate.
Qed.

(** The product of two products in the class of C69. *)
Theorem c52_products : forall (num : Type) (N : NumOps num) lit ok, IntLits N lit ok ->
  forall toR, (forall c z, lit c z -> toR c = IZR z) ->
  forall (a b : expr num) fa fb, easy_product lit a fa -> easy_product lit b fb -> easy fa fb -> (forall n, ok (amount n (fa ++ fb))) ->
  exists l r, operator_gives OMul a b r /\ tree_over OMul (Nat.log2_up (length l)) l r /\ gathered lit l (fa ++ fb) /\
    forall rho v, ev toR (EMul a b) rho v <-> ev toR r rho v.
Proof.
  intros num N lit ok IL toR HR a b fa fb Ha Hb He Hw. pose proof (ep_mul lit a b fa fb Ha Hb He) as P.
  destruct (c69_like_factors_partial num N lit ok IL false _ _ P Hw) as (l & r & A & T & G).
  destruct (c69_value num N lit ok IL toR HR false _ _ P Hw) as (r' & A' & V).
  rewrite <- (always_fun false _ r r' A A') in V. exists l, r. split; [now apply gives_always|]. auto.
Qed.
Print Assumptions c52_products.

Lemma nodup_app {A} (l m : list A) : NoDup (l ++ m) -> NoDup l /\ NoDup m /\ forall x, In x l -> ~ In x m.
Proof.
  induction l as [|y l IH]; intros H; [repeat split; [constructor|exact H|intros x []]|]. cbn [app] in H.
  apply NoDup_cons_iff in H. destruct H as [Hy H]. destruct (IH H) as (Dl & Dm & Dj). rewrite in_app_iff in Hy.
  split; [apply NoDup_cons_iff; tauto|]. split; [exact Dm|]. intros x [<-|Hx]; [tauto|auto].
Qed.
Lemma tree_easy {num} (lit : num -> Z -> Prop) d l (t : expr num) tl : tree_over OMul d l t ->
  List.Forall2 (fac lit) l tl -> NoDup (names tl) -> easy_product lit t tl.
Proof.
  intros H. revert tl. induction H as [d e|d l1 l2 a b H1 IH1 H2 IH2]; intros tl Hl Hd.
  - inversion Hl as [|? u ? l' Hu Hn]; subst. inversion Hn; subst. now constructor.
  - apply Forall2_app_inv_l in Hl. destruct Hl as (t1 & t2 & F1 & F2 & ->). unfold names in Hd. rewrite map_app in Hd.
    destruct (nodup_app _ _ Hd) as (D1 & D2 & Dj).
    apply ep_mul; [now apply IH1|now apply IH2|]. left. exact Dj.
Qed.

(** Multiplying by variables one at a time: every exponent counts how often
    its variable came up. *)
Theorem c52_running_product : forall (num : Type) (N : NumOps num) lit ok, IntLits N lit ok ->
  forall (xs : list string) (a : expr num) fs, easy_product lit a fs -> xs <> [] ->
  let all := fs ++ map (fun x => (Some x, 1)) xs in (forall n, ok (amount n all)) ->
  exists l r, running a (map (fun x => (OMul, EVar x)) xs) r /\ tree_over OMul (Nat.log2_up (length l)) l r /\ gathered lit l all.
Proof.
  intros num N lit ok IL. induction xs as [|x xs IH]; intros a fs Ha Hne all Hw; [now destruct Hne|]. unfold all in *. clear all.
  assert (E : fs ++ map (fun x => (Some x, 1)) (x :: xs) = (fs ++ [(Some x, 1)]) ++ map (fun x => (Some x, 1)) xs) by (cbn [map]; now rewrite <- app_assoc).
  rewrite E in *.
  assert (P : easy_product lit (EMul a (EVar x)) (fs ++ [(Some x, 1)])).
  { apply ep_mul; [exact Ha|apply ep_fac, fc_pow; [apply pw_var|lia]|]. right; left. exists (Some x), 1. auto. }
  assert (Fv : List.Forall fine (map (fun x => (Some x, 1)) xs)) by (apply Forall_map, Forall_forall; intros; unfold fine; cbn; lia).
  pose proof (product_fine lit _ _ (easy_is_product lit _ _ P)) as Fp.
  assert (Hw1 : forall n, ok (amount n (fs ++ [(Some x, 1)]))) by (intros n; eapply (il_ok_le _ _ _ IL); [exact (Hw n)|now apply amount_le]).
  destruct (c69_like_factors_partial num N lit ok IL false _ _ P Hw1) as (l & s & A & T & G).
  assert (O : operator_gives OMul a (EVar x) s) by now apply gives_always.
  destruct xs as [|y xs].
  - exists l, s. rewrite app_nil_r. split; [eapply rn_step; [exact O|apply rn_nil]|]. auto.
  - destruct G as (fl & Fl & Dl & Al).
    destruct (IH s fl (tree_easy lit _ _ _ _ T Fl Dl)) as (l' & r & R & T' & (gl & Gl & Dg & Ag)).
    + discriminate.
    + intros n. rewrite amount_app, Al, <- amount_app. apply Hw.
    + exists l', r. split; [eapply rn_step; [exact O|exact R]|]. split; [exact T'|]. exists gl. split; [exact Gl|]. split; [exact Dg|].
      intros n. rewrite Ag, amount_app, Al, <- amount_app. reflexivity.
Qed.
Print Assumptions c52_running_product.
Example c52_running_product_case : easy_product d_int (EMul (dr 2) (EVar "x")) [(None, 2); (Some "x", 1)] /\
  let all := [(None, 2); (Some "x", 1)] ++ map (fun x => (Some x, 1)) ["y"; "x"; "y"; "y"; "z"] in
  (forall n, Z.abs (amount n all) <= 2 ^ 53) /\ amount (Some "y") all = 3 /\ amount (Some "x") all = 2 /\ amount None all = 2.
Proof.
  split.
  - apply (ep_mul _ _ _ [(None, 2)] [(Some "x", 1)]).
    + apply ep_fac, fc_lit; [now apply d_lit|discriminate|discriminate].
    + apply ep_fac, fc_pow; [apply pw_var|lia].
    + left. intros n [<-|[]] [H|[]]. discriminate.
  - split; [apply amounts_small; vm_compute; discriminate|]. repeat split; reflexivity.
Qed.
