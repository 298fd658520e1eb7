(** Sums of like terms: what Simplify makes of terms that are all multiples of
    the same power. *)
From Coq Require Import String Bool ZArith Lia List.
From Verif Require Import Base Num Expr Simplify Calculus SpecPoly PolyProofs.
Import ListNotations.
Open Scope Z_scope.
Open Scope list_scope.

Section Like.
  Context {num : Type} {N : NumOps num}.
  Variables (lit : num -> Z -> Prop) (ok : Z -> Prop).
  Hypothesis IL : IntLits N lit ok.
  Variable prefer : bool.
  Notation E := (expr num).
  Notation power := (power lit).
  Notation term := (term lit false).
  Notation multiple := (multiple false).
  Local Notation okle := (PolyProofs.okle lit ok IL).
  Local Notation lit0 := (PolyProofs.lit0 lit ok IL).
  Local Notation lit1 := (PolyProofs.lit1 lit ok IL).
  Local Notation lit2 := (PolyProofs.lit2 lit ok IL).
  Local Notation litm1 := (PolyProofs.litm1 lit ok IL).
  Local Notation eqb_lit := (PolyProofs.eqb_lit lit ok IL).
  Local Notation m_eq_power := (PolyProofs.m_eq_power lit ok IL).
  Local Notation simp_scaled := (PolyProofs.simp_scaled lit ok IL false prefer).
  Local Notation simp_power := (PolyProofs.simp_power lit ok IL prefer).

  (* one term of the kind k with the coefficient z, or the number 0 *)
  Definition one (r : E) (k : key) (z : Z) : Prop := term r (k, z) \/ z = 0 /\ exists c, r = EReal c /\ lit c 0.

  Notation addS n := (simp (S (S (S n))) prefer).
  Notation add_run n a b := (first_rule (add_rules (addS n)) (add_rest (addS n)) a b).
  Ltac go := cbn -[m_eq simp add_rest String.eqb Z.eqb n0 n1 n2].
  Ltac meq :=
    repeat match goal with
    | H : m_eq ?a ?b = _ |- context [m_eq ?a ?b] => rewrite H
    | H : n_eqb ?a ?b = _ |- context [n_eqb ?a ?b] => rewrite H
    end.
  Ltac nxt := rewrite first_no; [|solve [reflexivity | unfold add_101, add_107, add_141, add_146; go; meq; reflexivity]].
  Ltac hit := erewrite first_yes; [|solve [reflexivity | unfold add_101, add_107, add_141, add_146; go; meq; go; reflexivity]].

  Lemma meq_same p q x k : power p x k -> power q x k -> m_eq p q = ([], Ok true).
  Proof. intros Hp Hq. rewrite (m_eq_power p q x k x k Hp Hq). now rewrite key_eqb_refl. Qed.

  Lemma add_one_run n a b k z w : one a k z -> one b k w -> ok (Z.abs z + Z.abs w) ->
    exists r, add_run n a b = ([], Ok r) /\ one r k (z + w).
  Proof.
    intros [Ha|[-> (c & -> & Hc)]] [Hb|[-> (d & -> & Hd)]] Hw; unfold add_rules.
    - inversion Ha as [c z' Hc|p x j Hp|c z' p x j m Hc Hp Hm]; subst.
      + inversion Hb as [d w' Hd| |]; subst. exists (EReal (n_add c d)). split; [reflexivity|]. left. constructor.
        apply (il_add _ _ _ IL); auto. eapply okle; [exact Hw|lia].
      + inversion Hb as [|q x' j' Hq|d w' q x' j' l Hd Hq Hl]; subst.
        * pose proof (meq_same a b x j Hp Hq) as M. exists (EMul (real 2) a). split.
          -- assert (R : simp (S (S (S n))) prefer (EMul (real 2) a) = ([], Ok (EMul (real 2) a)))
               by (apply (simp_scaled n n2 2 a x j _ lit2 Hp (ml_pre _ _ _ _))).
             destruct Hp, Hq; do 5 nxt; apply first_yes; unfold add_141; rewrite M, bind_ok; unfold yesM; now rewrite R.
          -- left. econstructor; [apply lit2|exact Hp|constructor].
        * destruct Hl as [|Hl]; [|discriminate]. pose proof (meq_same q a x j Hq Hp) as M.
          exists (EMul (EReal (n_add d n1)) q). split.
          -- destruct Hp, Hq; do 6 nxt; hit; reflexivity.
          -- left. econstructor; [|exact Hq|constructor]. rewrite Z.add_comm. apply (il_add _ _ _ IL); auto using lit1. eapply okle; [exact Hw|lia].
      + destruct Hm as [|Hm]; [|discriminate]. inversion Hb as [|q x' j' Hq|d w' q x' j' l Hd Hq Hl]; subst.
        * pose proof (meq_same p b x j Hp Hq) as M. exists (EMul (EReal (n_add c n1)) p). split.
          -- destruct Hp, Hq; do 6 nxt; hit; reflexivity.
          -- left. econstructor; [|exact Hp|constructor]. apply (il_add _ _ _ IL); auto using lit1. eapply okle; [exact Hw|lia].
        * destruct Hl as [|Hl]; [|discriminate]. pose proof (meq_same p q x j Hp Hq) as M. exists (EMul (EReal (n_add c d)) p). split.
          -- destruct Hp, Hq; do 2 nxt; hit; reflexivity.
          -- left. econstructor; [|exact Hp|constructor]. apply (il_add _ _ _ IL); auto. eapply okle; [exact Hw|lia].
    - rewrite Z.add_0_r. pose proof (eqb_lit _ _ _ _ Hd lit0) as Ec. change (0 =? 0) with true in Ec.
      inversion Ha as [c z' Hc|p x j Hp|c z' p x j m Hc Hp Hm]; subst.
      + exists (EReal (n_add c d)). split; [reflexivity|]. left. constructor. rewrite <- (Z.add_0_r z) at 1.
        apply (il_add _ _ _ IL); auto. eapply okle; [exact Hw|lia].
      + exists a. split; [|now left]. destruct Hp; nxt; hit; reflexivity.
      + destruct Hm as [|Hm]; [|discriminate]. eexists. split; [|left; exact Ha]. destruct Hp; nxt; hit; reflexivity.
    - rewrite Z.add_0_l. pose proof (eqb_lit _ _ _ _ Hc lit0) as Ec. change (0 =? 0) with true in Ec.
      inversion Hb as [d z' Hd|p x j Hp|d z' p x j m Hd Hp Hm]; subst.
      + exists (EReal (n_add c d)). split; [reflexivity|]. left. constructor. rewrite <- (Z.add_0_l w) at 1.
        apply (il_add _ _ _ IL); auto. eapply okle; [exact Hw|lia].
      + exists b. split; [|now left]. destruct Hp; nxt; hit; reflexivity.
      + destruct Hm as [|Hm]; [|discriminate]. eexists. split; [|left; exact Hb]. destruct Hp; nxt; hit; reflexivity.
    - exists (EReal (n_add c d)). split; [reflexivity|]. right. split; [reflexivity|]. eexists. split; [reflexivity|].
      rewrite <- (Z.add_0_l 0). now apply (il_add _ _ _ IL).
  Qed.
  Lemma yields_add_one a b a' b' k z w : yields prefer a a' -> one a' k z -> yields prefer b b' -> one b' k w ->
    ok (Z.abs z + Z.abs w) -> exists r, yields prefer (EAdd a b) r /\ one r k (z + w).
  Proof.
    intros (n & Hn) Ha (m & Hm) Hb Hw. destruct (add_one_run (max n m) a' b' k z w Ha Hb Hw) as (r & Hr & O). exists r. split; [|exact O].
    exists (S (S (S (S (max n m))))). change (simp (S (S (S (S (max n m))))) prefer (EAdd a b)) with
      (visit_add (addS (max n m)) a b). unfold visit_add.
    rewrite (operands_run _ _ _ _ a' b'); [exact Hr| |]; eapply yields_ge; eauto; lia.
  Qed.

  Lemma scaled_one c z p x k : lit c z -> power p x k -> one (scaled (EMul (EReal c) p) z p) (Some (x, k)) z.
  Proof.
    intros Hc Hp. unfold scaled. destruct (Z.eqb_spec z 0) as [->|Z0]; [|destruct (Z.eqb_spec z 1) as [->|Z1]].
    - right. split; [reflexivity|]. exists n0. split; [reflexivity|apply lit0].
    - left. now constructor.
    - left. econstructor; eauto. constructor.
  Qed.
  Lemma term_one e k z : term e (k, z) -> exists r, yields prefer e r /\ one r k z.
  Proof.
    intros H. inversion H as [c z' Hc|p x j Hp|c z' p x j m Hc Hp Hm]; subst.
    - exists (EReal c). split; [exists 1%nat; reflexivity|now left].
    - exists e. split; [exists 2%nat; eapply simp_power; eauto|now left].
    - destruct Hm as [|Hm]; [|discriminate]. eexists. split; [exists 3%nat; eapply (simp_scaled 0); eauto using ml_pre|now apply scaled_one].
  Qed.
  Lemma one_self r k z : one r k z -> exists r', yields prefer r r' /\ one r' k z.
  Proof.
    intros [H|[-> (c & -> & Hc)]]; [now apply term_one|]. exists (EReal c). split; [exists 1%nat; reflexivity|]. right. split; [reflexivity|now exists c].
  Qed.

  Notation mul_run m c a := (first_rule (mul_rules (simp m prefer) prefer) (mul_rest (simp m prefer)) (EReal c) a).
  Lemma mul_one_run c z a k w : lit c z -> one a k w -> ok (z * w) ->
    exists n r, (forall m, (n <= m)%nat -> mul_run m c a = ([], Ok r)) /\ one r k (z * w).
  Proof.
    intros Hc Ha Hw.
    destruct (Z.eq_dec z 0) as [->|Z0].
    { exists 0%nat, (real 0). split; [intros m _; eapply mul_zero; eauto|]. right. split; [lia|]. exists n0. split; [reflexivity|apply lit0]. }
    destruct (Z.eq_dec z 1) as [->|Z1].
    { destruct (one_self a k w Ha) as (r & (n & Hn) & O). exists n, r. rewrite Z.mul_1_l. split; [|exact O].
      intros m Hnm. eapply mul_one; eauto. eapply yields_ge; eauto. }
    assert (Lit : forall d v, lit d v -> ok (z * v) -> exists n r, (forall m, (n <= m)%nat -> mul_run m c (EReal d) = ([], Ok r)) /\
              exists e, r = EReal e /\ lit e (z * v)).
    { intros d v Hd Hv. exists 0%nat, (EReal (n_mul c d)). split.
      - intros m _. unfold mul_rules. rewrite first_no; [|rewrite (mul_478_run lit ok IL prefer m c z _ Hc); apply Z.eqb_neq in Z0, Z1; now rewrite Z0, Z1].
        now apply first_yes.
      - exists (n_mul c d). split; [reflexivity|]. now apply (il_mul _ _ _ IL). }
    destruct Ha as [Ha|[-> (d & -> & Hd)]].
    - inversion Ha as [d w' Hd|p x j Hp|d w' p x j m Hd Hp Hm]; subst.
      + destruct (Lit d w Hd Hw) as (n & r & R & e & -> & He). exists n, (EReal e). split; [exact R|]. left. now constructor.
      + rewrite Z.mul_1_r in *. exists 2%nat, (scaled (EMul (EReal c) a) z a). split; [|now apply scaled_one].
        intros m Hm'. destruct m as [|[|m]]; try lia. pose proof (simp_scaled m c z a x j _ Hc Hp (ml_pre _ _ _ _)) as K.
        change (simp (S (S (S m))) prefer (EMul (EReal c) a)) with (visit_mul (simp (S (S m)) prefer) prefer (EReal c) a) in K.
        unfold visit_mul in K. rewrite (operands_run _ _ _ _ (EReal c) a) in K; [exact K|reflexivity|].
        eapply simp_power; eauto.
      + destruct Hm as [|Hm]; [|discriminate].
        exists 0%nat, (EMul (EReal (n_mul c d)) p). split; [intros m _; eapply mul_scaled; eauto|].
        left. econstructor; [|exact Hp|constructor]. now apply (il_mul _ _ _ IL).
    - destruct (Lit d 0 Hd Hw) as (n & r & R & e & -> & He). exists n, (EReal e). split; [exact R|]. right. rewrite Z.mul_0_r in *. split; [reflexivity|now exists e].
  Qed.
  Lemma yields_mul_one c z a a' k w : lit c z -> yields prefer a a' -> one a' k w -> ok (z * w) ->
    exists r, yields prefer (EMul (EReal c) a) r /\ one r k (z * w).
  Proof.
    intros Hc Ya Ha Hw. destruct (mul_one_run c z a' k w Hc Ha Hw) as (n & r & R & O). exists r. split; [|exact O].
    eapply yields_visit_mul; eauto.
  Qed.
  Lemma yields_neg_one a a' k w : yields prefer a a' -> one a' k w -> ok w ->
    exists r, yields prefer (ENeg a) r /\ one r k (-1 * w).
  Proof.
    intros (n & Hn) Ha Hw. destruct (one_self a' k w Ha) as (a2 & Y2 & O2).
    destruct (yields_mul_one nm1 (-1) a' a2 k w litm1 Y2 O2) as (r & (m & Hm) & O); [eapply okle; [exact Hw|lia]|].
    exists r. split; [|exact O]. exists (S (max n m)). change (simp (S (max n m)) prefer (ENeg a)) with
        (visit_neg (simp (max n m) prefer) a). unfold visit_neg.
    rewrite (yields_ge prefer _ _ n (max n m) Hn), bind_ok by lia.
    change (real (-1) : E) with (EReal nm1 : E). now rewrite (yields_ge prefer _ _ m (max n m) Hm) by lia.
  Qed.

  Notation sub_run m a b :=
    (first_rule (sub_rules (simp m prefer)) (fun l r => simp m prefer (EAdd l (EMul (real (-1)) r))) a b).
  Ltac gos := cbn -[m_eq simp String.eqb Z.eqb n0 n1 n2].
  Ltac nxts := rewrite first_no; [|solve [reflexivity | unfold sub_368, sub_384, sub_392, sub_400; gos; meq; reflexivity]].

  Lemma sub_like_one c z d w q x k : lit c z -> lit d w -> power q x k -> ok (Z.abs z + Z.abs w) ->
    exists r, yields prefer (EMul (ESub (EReal c) (EReal d)) q) r /\ one r (Some (x, k)) (z - w).
  Proof.
    intros Hc Hd Hq Hw. assert (Hs : lit (n_sub c d) (z - w)) by (apply (il_sub _ _ _ IL); auto; eapply okle; [exact Hw|lia]).
    eexists. split; [eapply yields_mul_lit; eauto; apply yields_sub_lit|]. now apply scaled_one.
  Qed.
  Lemma one_zero k c : lit c 0 -> one (EReal c) k 0.
  Proof. intros H. right. split; [reflexivity|now exists c]. Qed.

  Lemma sub_one_run a b k z w : one a k z -> one b k w -> ok (Z.abs z + Z.abs w) ->
    exists n r, (forall m, (n <= m)%nat -> sub_run m a b = ([], Ok r)) /\ one r k (z - w).
  Proof.
    intros Ha Hb Hw.
    assert (Def : exists n r, (forall m, (n <= m)%nat -> simp m prefer (EAdd a (EMul (real (-1)) b)) = ([], Ok r)) /\ one r k (z - w)).
    { destruct (one_self a k z Ha) as (a' & Ya & Oa), (one_self b k w Hb) as (b' & Yb & Ob).
      destruct (yields_mul_one nm1 (-1) b b' k w litm1 Yb Ob) as (c & Yc & Oc); [eapply okle; [exact Hw|lia]|].
      destruct (yields_add_one a _ a' c k z _ Ya Oa Yc Oc) as (r & (n & Y) & O); [eapply okle; [exact Hw|lia]|].
      exists n, r. split; [intros m L; eapply yields_ge; eauto|]. now replace (z - w) with (z + -1 * w) by lia. }
    assert (Lit : forall c d y v, lit c y -> lit d v -> ok (Z.abs y + Z.abs v) ->
              (forall m, sub_run m (EReal c) (EReal d) = ([], Ok (EReal (n_sub c d)))) /\ lit (n_sub c d) (y - v)).
    { intros c d y v Hc Hd Hv. split; [reflexivity|]. apply (il_sub _ _ _ IL); auto. eapply okle; [exact Hv|lia]. }
    assert (Zero : forall x j, m_eq a b = ([], Ok true) -> k = Some (x, j) -> z = w ->
              sub_360 a b = ([], Ok None) -> exists n r, (forall m, (n <= m)%nat -> sub_run m a b = ([], Ok r)) /\ one r k (z - w)).
    { intros x j M -> -> H0. exists 0%nat, (real 0). split; [|rewrite Z.sub_diag; apply one_zero, lit0].
      intros m _. unfold sub_rules. rewrite first_no by exact H0. apply first_yes. unfold sub_368. rewrite M. reflexivity. }
    destruct Ha as [Ha|[-> (c & -> & Hc)]], Hb as [Hb|[-> (d & -> & Hd)]].
    - destruct (m_eq_terms lit ok IL false a b (k, z) (k, w) Ha Hb) as (q & M & K).
      inversion Ha as [c z' Hc|p x j Hp|c z' p x j m Hc Hp Hm]; subst.
      + inversion Hb as [d w' Hd| |]; subst. destruct (Lit c d z w Hc Hd Hw) as [R L]. exists 0%nat. eexists. split; [intros m _; apply R|left; now constructor].
      + destruct q; [specialize (K eq_refl); injection K as <-; apply (Zero x j); auto; inversion Hb; subst; destruct Hp; reflexivity|].
        inversion Hb as [|q x' j' Hq|d w' q x' j' l Hd Hq Hl]; subst.
        * exfalso. rewrite (meq_same a b x j Hp Hq) in M. discriminate M.
        * destruct Hl as [|Hl]; [|discriminate]. pose proof (meq_same a q x j Hp Hq) as M2.
          destruct (sub_like_one n1 1 d w a x j lit1 Hd Hp Hw) as (r & (n & Y) & O).
          exists n, r. split; [|exact O]. intros m Hn. unfold sub_rules.
          destruct Hp; do 4 nxts; (eapply first_yesM; [unfold sub_392; gos; rewrite M2, bind_ok; reflexivity|eapply yields_ge; eauto]).
      + destruct Hm as [|Hm]; [|discriminate].
        destruct q; [specialize (K eq_refl); injection K as <-; apply (Zero x j); auto|].
        inversion Hb as [|q x' j' Hq|d w' q x' j' l Hd Hq Hl]; subst.
        * pose proof (meq_same p b x j Hp Hq) as M2.
          destruct (sub_like_one c z n1 1 b x j Hc lit1 Hq Hw) as (r & (n & Y) & O).
          exists n, r. split; [|exact O]. intros m Hn. unfold sub_rules.
          destruct Hq; do 3 nxts; (eapply first_yesM; [unfold sub_384; gos; rewrite M2, bind_ok; reflexivity|eapply yields_ge; eauto]).
        * destruct Hl as [|Hl]; [|discriminate]. pose proof (meq_same p q x j Hp Hq) as M2.
          assert (M3 := m_eq_pm lit false d w p q _ x j Hp (ml_pre _ _ _ _)). assert (M4 := m_eq_mp lit false c z q p _ x j Hq (ml_pre _ _ _ _)).
          destruct (sub_like_one c z d w q x j Hc Hd Hq Hw) as (r & (n & Y) & O).
          exists n, r. split; [|exact O]. intros m Hn. unfold sub_rules.
          do 5 nxts; (eapply first_yesM; [unfold sub_400; gos; rewrite M2, bind_ok; reflexivity|eapply yields_ge; eauto]).
    - inversion Ha as [c z' Hc|p x j Hp|c z' p x j m Hc Hp Hm]; subst.
      + destruct (Lit c d z 0 Hc Hd Hw) as [R L]. exists 0%nat. eexists. split; [intros m _; apply R|left; now constructor].
      + destruct Def as (n & r & R & O). exists n, r. split; [|exact O]. intros m Hm. assert (M := m_eq_cp lit d a x j Hp).
        unfold sub_rules. destruct Hp; do 9 nxts; now apply R.
      + destruct Hm as [|Hm]; [|discriminate].
        destruct Def as (n & r & R & O). exists n, r. split; [|exact O]. intros m Hm. assert (M := m_eq_cp lit d p x j Hp).
        unfold sub_rules. do 9 nxts; now apply R.
    - inversion Hb as [d z' Hd|p x j Hp|d z' p x j m Hd Hp Hm]; subst.
      + destruct (Lit c d 0 w Hc Hd Hw) as [R L]. exists 0%nat. eexists. split; [intros m _; apply R|left; now constructor].
      + destruct Def as (n & r & R & O). exists n, r. split; [|exact O]. intros m Hm. assert (M := m_eq_pc lit c b x j Hp).
        unfold sub_rules. destruct Hp; do 9 nxts; now apply R.
      + destruct Hm as [|Hm]; [|discriminate].
        destruct Def as (n & r & R & O). exists n, r. split; [|exact O]. intros m Hm. assert (M := m_eq_pc lit c p x j Hp).
        unfold sub_rules. do 9 nxts; now apply R.
    - destruct (Lit c d 0 0 Hc Hd Hw) as [R L]. exists 0%nat. eexists. split; [intros m _; apply R|apply one_zero; exact L].
  Qed.
  Lemma yields_sub_one a b a' b' k z w : yields prefer a a' -> one a' k z -> yields prefer b b' -> one b' k w ->
    ok (Z.abs z + Z.abs w) -> exists r, yields prefer (ESub a b) r /\ one r k (z - w).
  Proof.
    intros (n1 & Y1) Ha (n2 & Y2) Hb Hw. destruct (sub_one_run a' b' k z w Ha Hb Hw) as (n & r & Hn & O). exists r. split; [|exact O].
    exists (S (max n (max n1 n2))). change (simp (S (max n (max n1 n2))) prefer (ESub a b)) with
        (visit_sub (simp (max n (max n1 n2)) prefer) a b). unfold visit_sub.
    rewrite (operands_run _ _ _ _ a' b'); [apply Hn; lia| |]; eapply yields_ge; eauto; lia.
  Qed.

  (** ** Polynomials of like terms *)
  Lemma total_weight k ts : Z.abs (total k ts) <= weight ts.
  Proof. induction ts as [|t ts IH]; cbn -[Z.abs Z.add]; [lia|]. fold (total k ts) (weight ts). destruct (key_eqb k (fst t)); lia. Qed.
  Theorem alike_yields post e ts k : poly lit ok prefer post e ts -> post = false -> ok (weight ts) -> Forall (fun t => fst t = k) ts ->
    exists r, yields prefer e r /\ one r k (total k ts).
  Proof.
    intros H. induction H as [post e t Ht|e ts He IHe|post a b ta tb Ha IHa Hb IHb Hap|post a b ta tb Ha IHa Hb IHb Hap Hsh|a ta Ha IHa|c z a ta Hc Z0 Hz Hm Ha IHa]; intros Hp Hw Hk; try discriminate; subst; try clear Hp.
    - inversion Hk as [|? ? Hf _]; subst. destruct t as [k z]. cbn [fst] in *. unfold total. cbn [fold_right fst snd]. rewrite key_eqb_refl, Z.add_0_r. now apply term_one.
    - rewrite weight_app in Hw. pose proof (weight_nonneg ta). pose proof (weight_nonneg tb). apply Forall_app in Hk. destruct Hk as [Ka Kb].
      destruct (IHa eq_refl) as (a' & Ya & Oa); [eapply okle; [exact Hw|lia]|exact Ka|].
      destruct (IHb eq_refl) as (b' & Yb & Ob); [eapply okle; [exact Hw|lia]|exact Kb|].
      rewrite total_app. eapply yields_add_one; eauto. eapply okle; [exact Hw|]. pose proof (total_weight k ta). pose proof (total_weight k tb). lia.
    - rewrite weight_app, weight_neg in Hw. pose proof (weight_nonneg ta). pose proof (weight_nonneg tb). apply Forall_app in Hk. destruct Hk as [Ka Kb].
      destruct (IHa eq_refl) as (a' & Ya & Oa); [eapply okle; [exact Hw|lia]|exact Ka|].
      destruct (IHb eq_refl) as (b' & Yb & Ob); [eapply okle; [exact Hw|lia]|apply Forall_map in Kb; exact Kb|].
      rewrite total_app, total_scale. replace (total k ta + -1 * total k tb) with (total k ta - total k tb) by lia.
      eapply yields_sub_one; eauto. eapply okle; [exact Hw|]. pose proof (total_weight k ta). pose proof (total_weight k tb). lia.
    - rewrite weight_neg in Hw. apply Forall_map in Hk. destruct (IHa eq_refl Hw Hk) as (a' & Ya & Oa). rewrite total_scale.
      eapply yields_neg_one; eauto. eapply okle; [exact Hw|]. pose proof (total_weight k ta). lia.
    - rewrite weight_scale in Hw. pose proof (weight_nonneg ta). apply Forall_map in Hk. pose proof (total_weight k ta).
      assert (Hw' : ok (weight ta)) by (eapply okle; [exact Hw|]; rewrite !Z.abs_mul, Z.abs_involutive; nia).
      destruct (IHa eq_refl Hw' Hk) as (a' & Ya & Oa). rewrite total_scale. eapply yields_mul_one; eauto.
      eapply okle; [exact Hw|]. rewrite !Z.abs_mul, Z.abs_involutive. nia.
  Qed.
End Like.
