(** Sums typed from left to right: what Simplify makes of them when fewer than
    two terms are left, and the derivative of that. *)
From Coq Require Import String Bool Arith ZArith Lia List.
From Verif Require Import Base Num Expr Ghost Simplify Calculus Spec SpecPoly TreeProofs MonadProofs FuelProofs PolyProofs PolyDiff.
Import ListNotations.
Open Scope Z_scope.
Open Scope list_scope.

Section Comb.
  Context {num : Type} {N : NumOps num}.
  Notation expr := (expr num).
  Variable lit : num -> Z -> Prop.
  Variable ok : Z -> Prop.
  Hypothesis IL : IntLits N lit ok.
  Notation term := (term lit).
  Notation plain := (plain lit).
  Notation neat := (neat lit).
  Notation power := (power lit).
  Notation settled := (settled lit).
  Notation res := (res lit).
  Local Notation okle := (PolyProofs.okle lit ok IL).
  Local Notation lit0 := (PolyProofs.lit0 lit ok IL).
  Local Notation eqb_lit := (il_eqb _ _ _ IL).

  (** Terms joined by + and - from left to right. *)
  Inductive comb : expr -> list monomial -> Prop :=
  | cb_term e t : term false e t -> comb e [t]
  | cb_add a b ta t : comb a ta -> term false b t -> comb (EAdd a b) (ta ++ [t])
  | cb_sub a b ta t : comb a ta -> term false b t -> comb (ESub a b) (ta ++ scale (-1) [t]).

  (* combined terms, to which further terms are added one at a time *)
  Inductive layered : expr -> list monomial -> Prop :=
  | ly_term e t : term false e t -> layered e [t]
  | ly_tree l tl e : build OAdd l = Some e -> Forall2 neat l tl -> NoDup (keys tl) -> layered e tl
  | ly_add a b ta t : layered a ta -> term false b t -> layered (EAdd a b) (ta ++ [t]).
  Definition lres (r : expr) (ts : list monomial) : Prop := exists tr, layered r tr /\ settled false r tr /\ refines tr ts.

  Lemma layered_plain e ts : layered e ts -> plain false e ts.
  Proof.
    induction 1 as [e t Ht|l tl e B F D|a b ta t Ha IH Hb].
    - now constructor.
    - exact (proj1 (settled_build lit false l e tl B F D)).
    - constructor; [exact IH|now constructor|right; now left].
  Qed.
  Lemma plain_one e t : plain false e [t] -> term false e t.
  Proof.
    intros H. remember [t] as ts eqn:E. destruct H as [e u Hu|a b ta tb Ha Hb Hap]; [now injection E as ->|].
    apply plain_length in Ha, Hb. apply (f_equal (@length monomial)) in E. rewrite app_length in E. cbn in E. lia.
  Qed.
  Lemma plain_two e ts : plain false e ts -> (length ts <= 2)%nat -> layered e ts.
  Proof.
    intros H L. destruct H as [e t Ht|a b ta tb Ha Hb Hap]; [now constructor|].
    pose proof (plain_length _ _ _ _ Ha). pose proof (plain_length _ _ _ _ Hb). rewrite app_length in L.
    destruct ta as [|t [|? ?]]; cbn in *; try lia. destruct tb as [|u [|? ?]]; cbn in *; try lia.
    apply (ly_add a b [t] u); [constructor|]; now apply plain_one.
  Qed.
  Lemma res_lres r ts : res false r ts -> (length ts <= 2)%nat -> lres r ts.
  Proof.
    intros (tr & St & Rt) L. exists tr. split; [apply plain_two; [apply St|destruct Rt as (_ & _ & _ & K); lia]|now split].
  Qed.
  Lemma lres_refines r ts ts' : lres r ts -> refines ts ts' -> lres r ts'.
  Proof. intros (tr & L & St & Rt) H. exists tr. split; [exact L|]. split; [exact St|eapply refines_trans; eauto]. Qed.
  Lemma res_one r t : res false r [t] -> exists u, term false r u /\ refines [u] [t].
  Proof.
    intros (tr & (P & _) & Rt). pose proof (plain_length _ _ _ _ P). pose proof Rt as (_ & _ & _ & K). cbn in K.
    destruct tr as [|u [|? ?]]; cbn in *; try lia. exists u. split; [now apply plain_one|exact Rt].
  Qed.

  Variable prefer : bool.
  Lemma rest_layered n a b ta t : layered a ta -> term false b t -> ok (weight (ta ++ [t])) ->
    exists r, add_rest (simp (S (S n)) prefer) a b = ([], Ok r) /\ lres r (ta ++ [t]).
  Proof.
    intros La Hb Hw. pose proof (layered_plain _ _ La) as Ha. assert (Pb : plain false b [t]) by now constructor. unfold add_rest, flatten.
    destruct (collect_all lit ok IL false prefer n (flat OAdd a ++ flat OAdd b) (ta ++ [t]) [] []) as (vals & -> & Hv & _);
      [apply Forall2_app; eapply plain_flat; eassumption|constructor|exact Hw|].
    destruct (collect_spec (ta ++ [t]) [] (NoDup_nil _)) as [Hd Hr].
    destruct (entries_neat lit ok IL _ _ Hv) as [Hz Hn]. cbn [bind app fst snd] in *. rewrite Hz. cbn [emit tell bind app fst snd].
    pose proof (refines_trans _ _ _ (filter_nonzero_refines _) Hr) as Hr'.
    pose proof (nodup_filter nonzero _ Hd) as Hd'.
    destruct (build OAdd _) as [e|] eqn:Hb'.
    - exists e. split; [reflexivity|]. eexists. split; [eapply ly_tree; eauto|]. split; [eapply (settled_build lit); eauto|exact Hr'].
    - exists (EAdd a b). split; [reflexivity|]. exists (ta ++ [t]). split; [now constructor|]. split; [|apply refines_refl].
      split; [constructor; auto; right; now left|]. intros H2. exfalso. apply (refines_two_left _ _ Hr') in H2.
      apply two_left_length in H2; auto.
      + apply Forall2_length in Hn. rewrite <- Hn in H2.
        destruct (build_spec OAdd _ H2) as (x & y & K & _). congruence.
      + apply Forall_forall. intros u Hu. apply filter_In in Hu. destruct Hu as [_ Hu]. unfold nonzero in Hu.
        apply negb_true_iff, Z.eqb_neq in Hu. exact Hu.
  Qed.
  Notation addS n := (simp (S (S (S n))) prefer).
  Notation add_run n a b := (first_rule (add_rules (addS n)) (add_rest (addS n)) a b).
  Ltac go := cbn -[m_eq simp add_rest String.eqb Z.eqb n0 n1 n2].
  Ltac meq :=
    repeat match goal with
    | H : m_eq ?a ?b = _ |- context [m_eq ?a ?b] => rewrite H
    | H : n_eqb ?a ?b = _ |- context [n_eqb ?a ?b] => rewrite H
    end.
  Ltac nxt := rewrite first_no; [|solve [reflexivity | unfold add_101, add_107, add_141, add_146; go; meq; reflexivity]].
  Ltac hit := erewrite first_yes; [|solve [reflexivity | unfold add_101, add_107, add_141, add_146; go; meq; go; reflexivity]].

  (* a sum and a term: collected, unless the term is 0 *)
  Lemma sum_step n x y b t : term false b t ->
    add_run n (EAdd x y) b = ([], Ok (EAdd x y)) /\ t = (None, 0) \/ add_run n (EAdd x y) b = add_rest (addS n) (EAdd x y) b.
  Proof.
    intros Hb. pose proof (m_eq_sum_l lit false b x y t Hb) as M. unfold add_rules.
    destruct Hb as [c z Hc|p v k Hp|c z p v k m Hc Hp Hm].
    - pose proof (eqb_lit _ _ _ _ Hc lit0) as Ec. nxt. destruct (Z.eqb_spec z 0) as [->|Hz].
      + left. split; [|reflexivity]. hit. reflexivity.
      + right. do 6 nxt. reflexivity.
    - right. destruct Hp; do 7 nxt; reflexivity.
    - right. pose proof (m_eq_sum_r lit false p x y _ (tm_power _ _ _ _ _ Hp)) as M2. destruct Hm; [|discriminate].
      destruct Hp; do 7 nxt; reflexivity.
  Qed.
  Lemma core_layered n a b ta t : layered a ta -> settled false a ta -> term false b t -> ok (weight (ta ++ [t])) ->
    exists r, add_run n a b = ([], Ok r) /\ lres r (ta ++ [t]).
  Proof.
    intros La Sa Hb Hw. destruct (proj1 Sa) as [a u Hu|x y tx ty Hx Hy Hxy].
    - destruct (add_core lit ok IL false prefer n a b [u] [t] Sa (settled_term lit false b t Hb)) as (r & Er & Rr); [now left|exact Hw|].
      exists r. split; [exact Er|]. apply res_lres; [exact Rr|]. cbn. lia.
    - destruct (sum_step n x y b t Hb) as [[-> ->]| ->].
      + eexists. split; [reflexivity|]. exists (tx ++ ty). split; [exact La|]. split; [exact Sa|apply refines_zero_r].
      + now apply rest_layered.
  Qed.
  Lemma refines_ok a b : refines a b -> ok (weight b) -> ok (weight a).
  Proof. intros (_ & _ & W & _) H. eapply okle; [exact H|]. pose proof (weight_nonneg a). lia. Qed.
  Lemma yields_layer a b a' b' ta t : yields prefer a a' -> lres a' ta -> yields prefer b b' -> res false b' [t] -> ok (weight (ta ++ [t])) ->
    exists r, yields prefer (EAdd a b) r /\ lres r (ta ++ [t]).
  Proof.
    intros (n & Hn) (ra & La & Sa & Ra) (m & Hm) Rb Hw. destruct (res_one _ _ Rb) as (u & Hu & Ru).
    pose proof (refines_app _ _ _ _ Ra Ru) as Rab.
    destruct (core_layered (max n m) a' b' ra u La Sa Hu (refines_ok _ _ Rab Hw)) as (r & Er & Rr).
    exists r. split; [|eapply lres_refines; eauto].
    exists (S (S (S (S (max n m))))). change (simp (S (S (S (S (max n m))))) prefer (EAdd a b)) with
      (visit_add (addS (max n m)) a b). unfold visit_add.
    rewrite (operands_run _ _ _ _ a' b'); [exact Er| |]; eapply yields_ge; eauto; lia.
  Qed.
  Lemma layered_yields e ts : layered e ts -> ok (weight ts) -> exists r, yields prefer e r /\ lres r ts.
  Proof.
    induction 1 as [e t Ht|l tl e B F D|a b ta t Ha IH Hb]; intros Hw.
    - destruct (term_yields lit ok IL false prefer e t Ht) as (r & Y & R). exists r. split; [exact Y|]. apply res_lres; [exact R|]. cbn. lia.
    - pose proof (build_balanced OAdd l e B) as T.
      destruct (combined_yields lit ok IL false prefer _ l e tl T F D Hw) as (r & Y & C).
      assert (r = e).
      { unfold canon in C. destruct l as [|a [|? ?]]; [discriminate B|discriminate B|]. congruence. }
      subst r. exists e. split; [exact Y|]. exists tl. split; [now apply (ly_tree l)|]. split; [now apply (settled_build lit false l)|apply refines_refl].
    - rewrite weight_app in Hw. pose proof (weight_nonneg ta). pose proof (weight_nonneg [t]).
      destruct IH as (a' & Ya & Ra); [eapply okle; [exact Hw|lia]|].
      destruct (term_yields lit ok IL false prefer b t Hb) as (b' & Yb & Rb).
      apply (yields_layer a b a' b'); auto. now rewrite weight_app.
  Qed.

  Notation sub_run m a b := (first_rule (sub_rules (simp m prefer)) (fun l r => simp m prefer (EAdd l (EMul (real (-1)) r))) a b).
  Ltac gos := cbn -[m_eq simp String.eqb Z.eqb n0 n1 n2].
  Ltac nxts := rewrite first_no; [|solve [reflexivity | unfold sub_368, sub_384, sub_392, sub_400; gos; meq; reflexivity]].
  Lemma sub_step m x y b t : term false b t -> sub_run m (EAdd x y) b = simp m prefer (EAdd (EAdd x y) (EMul (real (-1)) b)).
  Proof.
    intros Hb. pose proof (m_eq_sum_l lit false b x y t Hb) as M. unfold sub_rules.
    destruct Hb as [d w Hd'|q v j Hq|d w q v j l Hd' Hq Hl].
    - do 9 nxts. reflexivity.
    - destruct Hq; do 9 nxts; reflexivity.
    - destruct Hl as [|Hl]; [|discriminate].
      pose proof (m_eq_sum_l lit false q x y _ (tm_power _ _ _ _ _ Hq)) as M2. do 9 nxts. reflexivity.
  Qed.
  Lemma yields_unlayer a b a' b' ta t : yields prefer a a' -> lres a' ta -> yields prefer b b' -> res false b' [t] -> ok (weight (ta ++ [t])) ->
    exists r, yields prefer (ESub a b) r /\ lres r (ta ++ scale (-1) [t]).
  Proof.
    intros (n1 & Y1) (ra & La & Sa & Ra) (n2 & Y2) Rb Hw. destruct (res_one _ _ Rb) as (u & Hu & Ru).
    pose proof (refines_ok _ _ (refines_app _ _ _ _ Ra Ru) Hw) as Hw'.
    assert (K : exists n r, (forall m, (n <= m)%nat -> sub_run m a' b' = ([], Ok r)) /\ lres r (ra ++ scale (-1) [u])).
    { destruct (proj1 Sa) as [a' v Hv|x y tx ty Hx Hy Hxy].
      - destruct (sub_terms lit ok IL prefer false a' b' v u Hv Hu Hw') as (n & r & Er & Rr); [discriminate|].
        exists n, r. split; [exact Er|]. apply res_lres; [exact Rr|]. cbn. lia.
      - rewrite weight_app in Hw'. pose proof (weight_nonneg (tx ++ ty)). pose proof (weight_nonneg [u]).
        destruct (layered_yields _ _ La) as (a2 & Y & R); [eapply okle; [exact Hw'|lia]|].
        destruct (plain_neg lit ok IL false prefer b' [u] eq_refl) as (b2 & Yb & R2); [now constructor|eapply okle; [exact Hw'|lia]|].
        cbn [scale map] in R2.
        destruct (yields_layer _ _ a2 b2 _ _ Y R Yb R2) as (r & (n & Yr) & Rr).
        { rewrite weight_app. eapply okle; [exact Hw'|]. cbn [weight fold_right fst snd] in *. lia. }
        exists n, r. split; [|exact Rr]. intros m Hm. rewrite (sub_step m x y b' u Hu). eapply yields_ge; eauto. }
    destruct K as (n & r & Hn & Rr). exists r. split.
    - exists (S (max n (max n1 n2))). change (simp (S (max n (max n1 n2))) prefer (ESub a b)) with
        (visit_sub (simp (max n (max n1 n2)) prefer) a b). unfold visit_sub.
      rewrite (operands_run _ _ _ _ a' b'); [apply Hn; lia| |]; eapply yields_ge; eauto; lia.
    - eapply lres_refines; [exact Rr|]. apply refines_app; [exact Ra|]. now apply refines_scale.
  Qed.

  Lemma comb_yields e ts : comb e ts -> ok (weight ts) -> exists r, yields prefer e r /\ lres r ts.
  Proof.
    induction 1 as [e t Ht|a b ta t Ha IH Hb|a b ta t Ha IH Hb]; intros Hw.
    - apply layered_yields; [now constructor|exact Hw].
    - rewrite weight_app in Hw. pose proof (weight_nonneg ta). pose proof (weight_nonneg [t]).
      destruct IH as (a' & Ya & Ra); [eapply okle; [exact Hw|lia]|].
      destruct (term_yields lit ok IL false prefer b t Hb) as (b' & Yb & Rb).
      apply (yields_layer a b a' b'); auto. now rewrite weight_app.
    - rewrite weight_app, weight_neg in Hw. pose proof (weight_nonneg ta). pose proof (weight_nonneg [t]).
      destruct IH as (a' & Ya & Ra); [eapply okle; [exact Hw|lia]|].
      destruct (term_yields lit ok IL false prefer b t Hb) as (b' & Yb & Rb).
      apply (yields_unlayer a b a' b'); auto. now rewrite weight_app.
  Qed.
End Comb.

(** ** Derivatives *)
Section CombDiff.
  Context {num : Type} {N : NumOps num}.
  Variables (lit : num -> Z -> Prop) (ok : Z -> Prop).
  Hypothesis IL : IntLits N lit ok.
  Hypothesis SQ : forall a z, lit a z -> ok (z * z) -> lit (n_pow a (n_of_Z 2)) (z * z) /\ n_pow_exact a (n_of_Z 2) = true.
  Notation E := (expr num).
  Notation power := (power lit).
  Notation term := (term lit).
  Notation plain := (plain lit).
  Notation neat := (neat lit).
  Notation res := (res lit).
  Notation settled := (settled lit).
  Notation layered := (layered lit).
  Notation comb := (comb lit).
  Notation lres := (lres lit).
  Local Notation okle := (PolyProofs.okle lit ok IL).
  Local Notation lit0 := (PolyProofs.lit0 lit ok IL).
  Local Notation eqb_lit := (il_eqb _ _ _ IL).

  Lemma plain_one_t post e t : plain post e [t] -> term post e t.
  Proof.
    intros H. remember [t] as ts eqn:Et. destruct H as [e u Hu|a b ta tb Ha Hb Hap]; [now injection Et as ->|].
    apply plain_length in Ha, Hb. apply (f_equal (@length monomial)) in Et. rewrite app_length in Et. cbn in Et. lia.
  Qed.
  Lemma res_one_t post r t : res post r [t] -> exists u, term post r u /\ refines [u] [t].
  Proof.
    intros (tr & (P & _) & Rt). pose proof (plain_length _ _ _ _ P). pose proof Rt as (_ & _ & _ & K). cbn in K.
    destruct tr as [|u [|? ?]]; cbn in *; try lia. exists u. split; [now apply plain_one_t|exact Rt].
  Qed.
  Lemma deriv1_zero x k : refines [(None, 0)] [deriv1 x (k, 0)].
  Proof.
    assert (Et : deriv1 x (k, 0) = (fst (deriv1 x (k, 0)), 0 * 1)).
    { unfold deriv1. cbn [fst snd]. destruct k as [[y j]|]; [|reflexivity]. destruct (String.eqb y x); [|reflexivity].
      destruct (j =? 1); cbn [fst]; f_equal; lia. }
    rewrite Et. apply (refines_scale_zero [(fst (deriv1 x (k, 0)), 1)]). cbn. lia.
  Qed.
  (* 0 + b *)
  Lemma zero_plus prefer a b b' u : yields prefer a (real 0) -> yields prefer b b' -> term true b' u -> ok (snd u) ->
    exists r, yields prefer (EAdd a b) r /\ term true r u.
  Proof.
    intros Ya Yb Tb Hu. destruct (is_type TReal b') eqn:Ty.
    - destruct b' as [d| | | | | | | |]; try discriminate Ty. destruct (plain_const lit true d [u]) as (z & Ez & Hd); [now constructor|].
      injection Ez as ->. exists (EReal (n_add n0 d)). split; [now apply yields_lit_add|]. constructor.
      apply (il_add _ _ _ IL n0 d 0 z); auto using lit0.
    - exists b'. split; [eapply (yields_zero_add lit ok IL); eauto|exact Tb].
  Qed.
  Lemma any_term_diff x e t : term false e t -> (forall y k, fst t = Some (y, k) -> ok (k - 1)) -> ok (snd (deriv1 x t)) ->
    ok (snd (deriv1 x (fst t, 1))) ->
    exists d, derives e x d /\ forall prefer, exists r, yields prefer d r /\ exists u, term true r u /\ refines [u] [deriv1 x t].
  Proof.
    intros Ht Hk Hw Hw1.
    assert (Kn : neat e t -> exists d, derives e x d /\ forall prefer, exists r, yields prefer d r /\ exists u, term true r u /\ refines [u] [deriv1 x t]).
    { intros Hn. destruct (term_diff lit ok IL SQ x e t Hn Hk Hw) as (d & D & K). exists d. split; [exact D|]. intros prefer.
      destruct (K prefer) as (r & Y & T & _). now exists r. }
    destruct Ht as [c z Hc|p y k Hp|c z p y k m Hc Hp Hm].
    - exists (real 0). split; [apply derives_real|]. intros prefer. exists (real 0). split; [apply yields_real|].
      exists (None, 0). split; [constructor; apply lit0|apply refines_refl].
    - apply Kn. now constructor.
    - destruct Hm; [|discriminate]. destruct (Z.eq_dec z 0) as [Z0|Z0]; [|destruct (Z.eq_dec z 1) as [Z1|Z1]; [|apply Kn; now constructor]].
      all: subst z; clear Kn; cbn [fst] in *.
      all: destruct (term_diff lit ok IL SQ x p (Some (y, k), 1) (nt_power _ _ _ _ Hp) Hk Hw1) as (d & D & K).
      all: assert (Y0 : yields false (EMul (real 0) p) (real 0))
        by exact (yields_multiple lit ok IL false false n0 0 p y k _ lit0 Hp (ml_pre _ _ _ _)).
      all: destruct (K false) as (dr & Yd & (u & Tu & Ru) & _).
      + assert (Ym : yields false (EMul (EReal c) d) (real 0)).
        { eapply (yields_visit_mul false _ _ dr 0); [exact Yd|]. intros m _. now apply (mul_zero lit ok IL). }
        exists (EReal (n_add n0 n0)). split; [eapply derives_mul; [apply derives_real|exact D|now apply yields_lit_add]|].
        intros prefer. eexists. split; [apply yields_real|]. exists (None, 0). split; [|apply deriv1_zero].
        constructor. apply (il_add _ _ _ IL n0 n0 0 0); auto using lit0. eapply okle; [apply (il_ok_2 _ _ _ IL)|lia].
      + destruct (term_yields lit ok IL true false dr u Tu) as (dr' & Yr & Rr). destruct (res_one_t _ _ _ Rr) as (u' & Tu' & Ru').
        pose proof (refines_trans _ _ _ Ru' Ru) as RR.
        assert (Ym : yields false (EMul (EReal c) d) dr').
        { destruct Yr as (n & Yr). eapply (yields_visit_mul false _ _ dr n); [exact Yd|]. intros m Hm.
          apply (mul_one lit ok IL); [exact Hc|]. eapply yields_ge; eauto. }
        assert (Hu' : ok (snd u')).
        { eapply okle; [exact Hw|]. destruct RR as (_ & _ & W & _). cbn -[Z.abs Z.add deriv1] in W. lia. }
        destruct (zero_plus false _ _ _ u' Y0 Ym Tu' Hu') as (r & Y & T).
        exists r. split; [eapply derives_mul; [apply derives_real|exact D|exact Y]|]. intros prefer.
        destruct (term_yields lit ok IL true prefer r u' T) as (r2 & Y2 & R2). destruct (res_one_t _ _ _ R2) as (u2 & T2 & Ru2).
        exists r2. split; [exact Y2|]. exists u2. split; [exact T2|]. eapply refines_trans; eauto.
  Qed.
  Lemma deriv_key_in x j ts : j <> 0 -> In (Some (x, j + 1)) (keys ts) -> In (Some (x, j)) (keys (deriv x ts)).
  Proof.
    intros J Hi. unfold keys in Hi. apply in_map_iff in Hi. destruct Hi as ([k z] & E & Hi). cbn [fst] in E. subst k.
    unfold keys, deriv. rewrite map_map. apply in_map_iff. exists (Some (x, j + 1), z). split; [|exact Hi].
    unfold deriv1. cbn [fst]. rewrite String.eqb_refl. destruct (Z.eqb_spec (j + 1) 1); [lia|]. cbn [fst]. do 2 f_equal. lia.
  Qed.
  (** The degree is at most [D]. *)
  Definition degree_le (D : Z) (ts : list monomial) : Prop := 1 <= D /\ forall y k, In (Some (y, k)) (keys ts) -> Z.abs k <= D.
  Lemma weight_degree D x ts : degree_le D ts -> weight (deriv x ts) <= D * weight ts.
  Proof.
    intros (D1 & H). induction ts as [|[k z] ts IH]; [cbn; lia|].
    assert (IH' : weight (deriv x ts) <= D * weight ts) by (apply IH; intros y j Hi; apply (H y); now right).
    cbn [deriv map weight fold_right]. fold (deriv x ts). fold (weight (deriv x ts)). fold (weight ts).
    assert (Z.abs (snd (deriv1 x (k, z))) <= D * Z.abs z); [|cbn [snd] in *; lia].
    unfold deriv1. cbn [fst snd]. destruct k as [[y k]|]; [|cbn; nia]. specialize (H y k (or_introl eq_refl)).
    destruct (String.eqb y x); [|cbn; nia]. destruct (k =? 1); cbn [snd]; rewrite ?Z.abs_mul; nia.
  Qed.
  Lemma degree_app D a b : degree_le D (a ++ b) -> degree_le D a /\ degree_le D b.
  Proof. intros (D1 & H). rewrite keys_app in H. split; (split; [exact D1|]); intros y k Hi; apply (H y), in_or_app; auto. Qed.

  Lemma layered_diff D x e ts : layered e ts -> degree_le D ts -> lowerable ok ts -> ok D -> ok (D * weight ts) ->
    exists d, derives e x d /\ forall prefer, exists r, yields prefer d r /\ res true r (deriv x ts).
  Proof.
    intros H. induction H as [e t Ht|l tl e B F Dk|a b ta t Ha IH Hb]; intros HD Hk HoD Hw.
    - destruct (any_term_diff x e t Ht) as (d & Dd & K).
      + intros y k Et. apply (Hk y). rewrite <- Et. now left.
      + pose proof (weight_degree D x [t] HD) as W. eapply okle; [exact Hw|]. cbn [deriv map weight fold_right] in *. lia.
      + destruct t as [k z]. pose proof (weight_degree D x [(k, 1)] HD) as W. eapply okle; [exact HoD|].
        cbn [fst deriv map weight fold_right snd] in *. lia.
      + exists d. split; [exact Dd|]. intros prefer. destruct (K prefer) as (r & Y & u & Tu & Ru). exists r. split; [exact Y|].
        exists [u]. split; [now apply settled_term|exact Ru].
    - pose proof (weight_degree D x tl HD) as W. pose proof (weight_nonneg (deriv x tl)).
      destruct (tree_diff lit ok IL SQ x _ l e (build_balanced OAdd l e B) tl F Dk Hk) as (d & Dd & K); [eapply okle; [exact Hw|lia]|].
      exists d. split; [exact Dd|]. intros prefer. destruct (K prefer) as (r & Y & R & _). now exists r.
    - destruct (degree_app _ _ _ HD) as [Da Db]. pose proof (weight_degree D x _ HD) as W. rewrite deriv_app, weight_app in W.
      pose proof (weight_nonneg ta). pose proof (weight_nonneg [t]). pose proof (weight_nonneg (deriv x ta)). pose proof (weight_nonneg (deriv x [t])).
      rewrite weight_app in *. assert (D1 := proj1 HD).
      assert (ka : lowerable ok ta) by (intros y k Hi; apply (Hk y); rewrite keys_app; apply in_or_app; now left).
      assert (kb : lowerable ok [t]) by (intros y k Hi; apply (Hk y); rewrite keys_app; apply in_or_app; now right).
      destruct (IH Da ka HoD) as (da & Dda & Ka); [eapply okle; [exact Hw|nia]|].
      pose proof (weight_degree D x [t] Db) as Wb.
      destruct (any_term_diff x b t Hb) as (db & Ddb & Kb).
      + intros y k Et. apply (kb y). rewrite <- Et. now left.
      + eapply okle; [exact Hw|]. cbn [deriv map weight fold_right] in *. nia.
      + destruct t as [k z]. pose proof (weight_degree D x [(k, 1)] Db) as W1. eapply okle; [exact HoD|].
        cbn [fst deriv map weight fold_right snd] in *. lia.
      + destruct (Ka false) as (ra & Ya & Ra). destruct (Kb false) as (rb & Yb & u & Tu & Ru).
        destruct (yields_add lit ok IL true false da db ra rb (deriv x ta) (deriv x [t])) as (r & Yr & Rr); auto.
        * exists [u]. split; [now apply settled_term|exact Ru].
        * right. now left.
        * rewrite weight_app. eapply okle; [exact Hw|nia].
        * exists r. split; [now apply (derives_add x a b da db)|]. intros prefer. rewrite deriv_app.
          destruct Rr as (tr & Str & Rtr).
          destruct (plain_yields lit ok IL true prefer r tr (proj1 Str)) as (r' & Y' & (tr' & S' & R')).
          { eapply okle; [exact Hw|]. destruct Rtr as (_ & _ & Wr & _). pose proof (weight_nonneg tr). rewrite weight_app in Wr. nia. }
          exists r'. split; [exact Y'|]. exists tr'. split; [exact S'|]. eapply refines_trans; eauto.
  Qed.

  (** The derivative of terms joined from left to right. *)
  Theorem comb_deriv prefer D e ts x : comb e ts -> degree_le D ts -> lowerable ok ts -> ok D -> ok (D * weight ts) ->
    exists r, (exists n0, forall n, (n0 <= n)%nat -> snd (simp n prefer (EDeriv e (EVar x))) = Ok r) /\
      exists tr, plain true r tr /\ (forall k, total k tr = total k (deriv x ts)) /\
        (forall p, In (Some p) (keys tr) -> In (Some p) (keys (deriv x ts))).
  Proof.
    intros Hc HD Hk HoD Hw. assert (D1 := proj1 HD). pose proof (weight_nonneg ts).
    destruct (comb_yields lit ok IL prefer e ts Hc) as (e1 & Y1 & (te & Le & Se & Re)); [eapply okle; [exact Hw|nia]|].
    assert (Re' := Re). destruct Re' as (Tt & Kt & Wt & _). pose proof (weight_nonneg te).
    destruct (layered_diff D x e1 te Le) as (d & Dd & K).
    - split; [exact D1|]. intros y k Hi. apply (proj2 HD y). now apply Kt.
    - intros y k Hi. apply (Hk y). now apply Kt.
    - exact HoD.
    - eapply okle; [exact Hw|nia].
    - destruct (K prefer) as (r & Yr & (tr & Sr & Rr)).
      assert (Hwe : ok (weight (deriv x te))).
      { eapply okle; [exact Hw|]. pose proof (weight_nonneg (deriv x te)).
        assert (degree_le D te) by (split; [exact D1|]; intros y k Hi; apply (proj2 HD y); now apply Kt).
        pose proof (weight_degree D x te H2). nia. }
      destruct (plain_yields lit ok IL true prefer r tr (proj1 Sr)) as (r' & Y' & (tr' & S' & R')); [now apply (refines_ok lit ok IL _ _ Rr)|].
      exists r'. split; [exact (deriv_run prefer e e1 x d r r' Y1 Dd Yr Y')|].
      pose proof (refines_trans _ _ _ R' Rr) as RR.
      exists tr'. split; [apply S'|]. destruct RR as (T & Kr & _). split.
      + intros k. rewrite T. now apply total_deriv.
      + intros p Hp. destruct (deriv_keys x p te (Kr p Hp)) as (j & -> & J & Hj). apply (deriv_key_in x j ts J), Kt, Hj.
  Qed.
End CombDiff.
