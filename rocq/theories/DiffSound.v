(** DifferentiateVisitor computes derivatives, as long as no ghost event is
    recorded. *)
From Coq Require Import String Bool ZArith Reals Lra Lia.
From Coquelicot Require Import Coquelicot.
From Coq Require Import List Permutation.
From Verif Require Import Base Num Expr Ghost Simplify Calculus Spec TreeProofs PowProofs SemProofs MonadProofs
  SimplifySound.
Import ListNotations.
Open Scope R_scope.

Section Dv.
  Context {num : Type} {N : NumOps num}.
  Variable toR : num -> R.
  Hypothesis HE : Exact N toR.
  Notation expr := (expr num).
  Notation ev := (ev toR).
  Notation regular := (regular toR).
  Notation refines := (refines toR).

  Lemma smooth_elementary (e : expr) : smooth e = true <-> elementary e.
  Proof.
    induction e as [c| |x| | | |r c d|o a IHa b IHb|o a IHa]; simpl;
      try (split; (discriminate || tauto)).
    - destruct o; try (rewrite andb_true_iff; tauto); split; (discriminate || tauto).
    - destruct o; try tauto; split; (discriminate || tauto).
  Qed.

  Lemma smooth_imag_free (e : expr) : smooth e = true -> imag_free e = true.
  Proof.
    induction e as [c| |x| | | |r c d|o a IHa b IHb|o a IHa]; simpl; auto.
    - destruct o; try discriminate; rewrite !andb_true_iff; tauto.
    - destruct o; auto.
  Qed.

  Lemma safe_regular rho (e : expr) : forall v, safe_powers e = true -> ev e rho v -> smooth e = true -> regular rho e.
  Proof.
    induction e as [c| |x| | | |r c d|o a IHa b IHb|o a IHa]; simpl; auto.
    - intros v Hs Hv Hm. rewrite !andb_true_iff in Hs. destruct Hs as [[Hp Ha] Hb].
      assert (K : smooth a = true /\ smooth b = true) by (destruct o; try discriminate; now apply andb_prop in Hm).
      destruct K as [Ma Mb].
      assert (K : exists p q, ev a rho p /\ ev b rho q).
      { destruct o; try discriminate; destruct Hv as (p & q & H1 & H2 & _); eauto. }
      destruct K as (p & q & H1 & H2). split; [eauto|split; [eauto|]].
      destruct o; auto. apply orb_prop in Hp. destruct Hp as [Hp|Hp].
      + left. unfold int_literal in Hp. destruct b; try discriminate. destruct (is_int_spec toR HE _ Hp) as [z Hz].
        eauto.
      + right. destruct (evident_pos_spec toR HE _ _ _ Hp H1) as (y & -> & Hy). eauto.
    - intros v Hs Hv Hm. destruct o; try discriminate; destruct Hv as (w & H & _); eauto.
  Qed.

  Section At.
    Variable x : string.

    Definition dv (e : expr) (rho : env) (w : C) : Prop := ev (EDeriv e (EVar x)) rho w.
    (* [e] has a value in a neighbourhood *)
    Definition near (e : expr) (rho : env) : Prop :=
      locally (rho x) (fun t => exists v, ev e (upd rho x t) v).

    Lemma dv_fun e rho v w : dv e rho v -> dv e rho w -> v = w.
    Proof. apply (ev_fun toR (EDeriv e (EVar x))). Qed.

    Lemma dv_near e rho w : dv e rho w -> near e rho.
    Proof. intros (f & d & H & _). unfold near. generalize H. apply filter_imp. eauto. Qed.

    Lemma dv_intro e rho f d : locally (rho x) (fun t => ev e (upd rho x t) (RtoC (f t))) ->
      is_derive f (rho x) d -> dv e rho (RtoC d).
    Proof. intros H1 H2. exists f, d. auto. Qed.

    Lemma dv_inv e rho w : dv e rho w ->
      exists f d, locally (rho x) (fun t => ev e (upd rho x t) (RtoC (f t))) /\ is_derive f (rho x) d /\ w = RtoC d.
    Proof. auto. Qed.

    (* the value at the point itself *)
    Lemma near_here e rho (f : R -> R) : locally (rho x) (fun t => ev e (upd rho x t) (RtoC (f t))) ->
      ev e rho (RtoC (f (rho x))).
    Proof.
      intros H. apply locally_singleton in H. eapply ev_ext; [|exact H]. intros y. apply upd_id.
    Qed.

    Lemma near_bin o a b rho : near (EBin o a b) rho -> o <> ODeriv -> near a rho /\ near b rho.
    Proof.
      intros H Ho. unfold near in *. split; generalize H; apply filter_imp; intros t [v Hv];
        destruct o; try congruence; try contradiction; destruct Hv as (p & q & H1 & H2 & _); eauto.
    Qed.

    Lemma derive_pos_near (f : R -> R) t d : is_derive f t d -> 0 < f t -> locally t (fun s => 0 < f s).
    Proof.
      intros Hd Hp. assert (Hc : continuous f t) by (apply (ex_derive_continuous f); now exists d).
      apply (Hc (fun y => 0 < y)). apply (open_gt 0). assumption.
    Qed.

    Lemma derive_neq_near c (f : R -> R) t d : is_derive f t d -> f t <> c -> locally t (fun s => f s <> c).
    Proof.
      intros Hd Hp. assert (Hc : continuous f t) by (apply (ex_derive_continuous f); now exists d).
      apply (Hc (fun y => y <> c)). apply (open_neq c). assumption.
    Qed.

    Lemma derive_ln (f : R -> R) t d : is_derive f t d -> 0 < f t -> is_derive (fun s => ln (f s)) t (d / f t).
    Proof. intros Hd Hp. unfold Rdiv. apply (is_derive_comp ln f); auto. now apply is_derive_ln. Qed.

    (** *** Derivatives of the operations *)
    Ltac two Ha Hb :=
      destruct (dv_inv _ _ _ Ha) as (fa & da & La & Da & Ea);
      destruct (dv_inv _ _ _ Hb) as (fb & db & Lb & Db & Eb);
      try (apply RtoC_inj in Ea; subst); try (apply RtoC_inj in Eb; subst);
      pose proof (near_here _ _ _ La) as Va; pose proof (near_here _ _ _ Lb) as Vb.

    Lemma dv_add a b rho u w : dv a rho (RtoC u) -> dv b rho (RtoC w) -> dv (EAdd a b) rho (RtoC (u + w)).
    Proof.
      intros Ha Hb. two Ha Hb. apply (dv_intro _ _ (fun t => fa t + fb t)).
      - generalize (filter_and _ _ La Lb). apply filter_imp. intros t [H1 H2].
        rewrite RtoC_plus. now apply ev_add.
      - now apply (is_derive_plus fa fb).
    Qed.
    Lemma dv_sub a b rho u w : dv a rho (RtoC u) -> dv b rho (RtoC w) -> dv (ESub a b) rho (RtoC (u - w)).
    Proof.
      intros Ha Hb. two Ha Hb. apply (dv_intro _ _ (fun t => fa t - fb t)).
      - generalize (filter_and _ _ La Lb). apply filter_imp. intros t [H1 H2].
        rewrite RtoC_minus. now apply ev_sub.
      - now apply (is_derive_minus fa fb).
    Qed.
    Lemma dv_mul a b rho p q u w : ev a rho (RtoC p) -> ev b rho (RtoC q) ->
      dv a rho (RtoC u) -> dv b rho (RtoC w) -> dv (EMul a b) rho (RtoC (u * q + p * w)).
    Proof.
      intros Pa Pb Ha Hb. two Ha Hb.
      pose proof (RtoC_inj _ _ (ev_fun toR _ _ _ _ Pa Va)). pose proof (RtoC_inj _ _ (ev_fun toR _ _ _ _ Pb Vb)). subst.
      apply (dv_intro _ _ (fun t => fa t * fb t)).
      - generalize (filter_and _ _ La Lb). apply filter_imp. intros t [H1 H2].
        rewrite RtoC_mult. now apply ev_mul.
      - apply (is_derive_mult fa fb); auto. intros; apply Rmult_comm.
    Qed.
    Lemma dv_div a b rho p q u w : ev a rho (RtoC p) -> ev b rho (RtoC q) -> q <> 0 ->
      dv a rho (RtoC u) -> dv b rho (RtoC w) -> dv (EDiv a b) rho (RtoC ((u * q - p * w) / (q * q))).
    Proof.
      intros Pa Pb Hq Ha Hb. two Ha Hb.
      pose proof (RtoC_inj _ _ (ev_fun toR _ _ _ _ Pa Va)). pose proof (RtoC_inj _ _ (ev_fun toR _ _ _ _ Pb Vb)). subst.
      apply (dv_intro _ _ (fun t => fa t / fb t)).
      - generalize (filter_and _ _ (filter_and _ _ La Lb) (derive_neq_near 0 _ _ _ Db Hq)). apply filter_imp.
        intros t [[H1 H2] H3]. rewrite RtoC_div by assumption. apply ev_div; auto. now apply RtoC_neq.
      - replace ((da * fb (rho x) - fa (rho x) * db) / (fb (rho x) * fb (rho x))) with
          ((da * fb (rho x) - fa (rho x) * db) / fb (rho x) ^ 2) by (f_equal; ring).
        now apply is_derive_div.
    Qed.
    Lemma dv_neg a rho u : dv a rho (RtoC u) -> dv (ENeg a) rho (RtoC (- u)).
    Proof.
      intros Ha. destruct (dv_inv _ _ _ Ha) as (fa & da & La & Da & Ea). apply RtoC_inj in Ea. subst.
      apply (dv_intro _ _ (fun t => - fa t)).
      - generalize La. apply filter_imp. intros t H1. rewrite RtoC_opp. simpl. eauto.
      - now apply (is_derive_opp fa).
    Qed.
    Lemma dv_sine a rho p u : ev a rho (RtoC p) -> dv a rho (RtoC u) -> dv (ESine a) rho (RtoC (u * cos p)).
    Proof.
      intros Pa Ha. destruct (dv_inv _ _ _ Ha) as (fa & da & La & Da & Ea). apply RtoC_inj in Ea. subst.
      pose proof (near_here _ _ _ La) as Va. pose proof (RtoC_inj _ _ (ev_fun toR _ _ _ _ Pa Va)). subst.
      apply (dv_intro _ _ (fun t => sin (fa t))).
      - generalize La. apply filter_imp. intros t H1. simpl. eauto.
      - apply (is_derive_comp sin fa); auto. apply is_derive_sin.
    Qed.
    Lemma dv_ln a rho p u : ev a rho (RtoC p) -> 0 < p -> dv a rho (RtoC u) ->
      dv (ELog EEuler a) rho (RtoC (u / p)).
    Proof.
      intros Pa Hp Ha. destruct (dv_inv _ _ _ Ha) as (fa & da & La & Da & Ea). apply RtoC_inj in Ea. subst.
      pose proof (near_here _ _ _ La) as Va. pose proof (RtoC_inj _ _ (ev_fun toR _ _ _ _ Pa Va)). subst.
      apply (dv_intro _ _ (fun t => ln (fa t))).
      - generalize (filter_and _ _ La (derive_pos_near _ _ _ Da Hp)). apply filter_imp. intros t [H1 H2].
        eapply ev_log; [reflexivity|exact H1|].
        exists (exp 1), (fa t). repeat split; auto; [apply exp_pos|pose proof exp_ineq1 1; lra|].
        rewrite ln_exp. f_equal. field.
      - now apply derive_ln.
    Qed.
    Lemma dv_log b a rho p q u w : ev b rho (RtoC q) -> ev a rho (RtoC p) -> 0 < p -> 0 < q -> q <> 1 ->
      dv b rho (RtoC w) -> dv a rho (RtoC u) ->
      dv (ELog b a) rho (RtoC ((u / p * ln q - ln p * (w / q)) / (ln q * ln q))).
    Proof.
      intros Pb Pa Hp Hq Hq1 Hb Ha. two Ha Hb.
      pose proof (RtoC_inj _ _ (ev_fun toR _ _ _ _ Pa Va)). pose proof (RtoC_inj _ _ (ev_fun toR _ _ _ _ Pb Vb)). subst.
      apply (dv_intro _ _ (fun t => ln (fa t) / ln (fb t))).
      - pose proof (derive_neq_near 1 _ _ _ Db Hq1) as L1.
        generalize (filter_and _ _ (filter_and _ _ La Lb)
          (filter_and _ _ L1 (filter_and _ _ (derive_pos_near _ _ _ Da Hp) (derive_pos_near _ _ _ Db Hq)))).
        apply filter_imp. intros t [[H1 H2] [H3 [H4 H5]]].
        eapply ev_log; [exact H2|exact H1|]. exists (fb t), (fa t). repeat split; auto.
      - pose proof (ln_neq_0' _ Hq Hq1) as Hl.
        replace ((da / fa (rho x) * ln (fb (rho x)) - ln (fa (rho x)) * (db / fb (rho x))) / (ln (fb (rho x)) * ln (fb (rho x))))
          with ((da / fa (rho x) * ln (fb (rho x)) - ln (fa (rho x)) * (db / fb (rho x))) / ln (fb (rho x)) ^ 2) by (f_equal; ring).
        apply (is_derive_div (fun t => ln (fa t)) (fun t => ln (fb t))); auto; now apply derive_ln.
    Qed.
    Lemma dv_exp a b rho p q u w : ev a rho (RtoC p) -> ev b rho (RtoC q) -> 0 < p ->
      dv a rho (RtoC u) -> dv b rho (RtoC w) ->
      dv (EExp a b) rho (RtoC (Rpower p q * (q * u / p + w * ln p))).
    Proof.
      intros Pa Pb Hp Ha Hb. two Ha Hb.
      pose proof (RtoC_inj _ _ (ev_fun toR _ _ _ _ Pa Va)). pose proof (RtoC_inj _ _ (ev_fun toR _ _ _ _ Pb Vb)). subst.
      apply (dv_intro _ _ (fun t => Rpower (fa t) (fb t))).
      - generalize (filter_and _ _ (filter_and _ _ La Lb) (derive_pos_near _ _ _ Da Hp)). apply filter_imp.
        intros t [[H1 H2] H3]. eapply ev_exp; [exact H1|exact H2|]. now apply cpow_real_iff.
      - unfold Rpower.
        replace (exp (fb (rho x) * ln (fa (rho x))) * (fb (rho x) * da / fa (rho x) + db * ln (fa (rho x))))
          with (scal (db * ln (fa (rho x)) + fb (rho x) * (da / fa (rho x))) (exp (fb (rho x) * ln (fa (rho x))))).
        2:{ unfold scal; simpl; unfold mult; simpl. field. lra. }
        apply (is_derive_comp exp (fun t => fb t * ln (fa t))).
        + apply is_derive_exp.
        + apply (is_derive_mult fb (fun t => ln (fa t))); auto.
          * now apply derive_ln.
          * intros; apply Rmult_comm.
    Qed.
    (* integer exponents *)
    Lemma dv_powz a c z rho p u : toR c = IZR z -> ev a rho (RtoC p) -> (p <> 0 \/ (0 < z)%Z) ->
      dv a rho (RtoC u) ->
      dv (EExp a (EReal c)) rho (RtoC (IZR z * u * powerRZ p (z - 1))).
    Proof.
      intros Hc Pa Hz Ha. destruct (dv_inv _ _ _ Ha) as (fa & da & La & Da & Ea). apply RtoC_inj in Ea. subst.
      pose proof (near_here _ _ _ La) as Va. pose proof (RtoC_inj _ _ (ev_fun toR _ _ _ _ Pa Va)). subst.
      destruct (Z_lt_le_dec 0 z) as [Hp|Hn].
      - apply (dv_intro _ _ (fun t => fa t ^ Z.to_nat z)).
        + generalize La. apply filter_imp. intros t H1. eapply ev_exp; [exact H1|reflexivity|].
          rewrite Hc, <- cpow_nat_R. replace (cpow_nat (RtoC (fa t)) (Z.to_nat z)) with (cpowz (RtoC (fa t)) z).
          * apply cpow_cpowz. auto.
          * destruct z; try lia. reflexivity.
        + replace (IZR z * da * powerRZ (fa (rho x)) (z - 1)) with (INR (Z.to_nat z) * da * fa (rho x) ^ pred (Z.to_nat z)).
          * now apply is_derive_pow.
          * rewrite INR_IZR_INZ, Z2Nat.id by lia. f_equal. rewrite pow_powerRZ. f_equal. lia.
      - assert (Hx : fa (rho x) <> 0) by (destruct Hz; [auto|lia]).
        apply (dv_intro _ _ (fun t => / (fa t ^ Z.to_nat (- z)))).
        + generalize (filter_and _ _ La (derive_neq_near 0 _ _ _ Da Hx)). apply filter_imp. intros t [H1 H2].
          eapply ev_exp; [exact H1|reflexivity|]. rewrite Hc.
          replace (RtoC (/ fa t ^ Z.to_nat (- z))) with (cpowz (RtoC (fa t)) z).
          * apply cpow_cpowz. left. now apply RtoC_neq.
          * rewrite cpowz_R by assumption. f_equal. destruct z; simpl; try lia; [now rewrite Rinv_1|reflexivity].
        + assert (Hpow : fa (rho x) ^ Z.to_nat (- z) <> 0) by now apply pow_nonzero.
          replace (IZR z * da * powerRZ (fa (rho x)) (z - 1))
            with (- (INR (Z.to_nat (- z)) * da * fa (rho x) ^ pred (Z.to_nat (- z))) / (fa (rho x) ^ Z.to_nat (- z)) ^ 2).
          * apply is_derive_inv; auto. now apply is_derive_pow.
          * destruct (Z.to_nat (- z)) as [|m] eqn:Em.
            -- replace z with 0%Z by lia. simpl INR. unfold Rdiv. ring.
            -- replace z with (- Z.of_nat (S m))%Z by lia. rewrite opp_IZR, <- INR_IZR_INZ.
               replace (- Z.of_nat (S m) - 1)%Z with (- Z.of_nat (S (S m)))%Z by lia.
               replace (powerRZ (fa (rho x)) (- Z.of_nat (S (S m)))) with (/ fa (rho x) ^ S (S m)).
               2:{ rewrite powerRZ_neg', pow_powerRZ. reflexivity. }
               assert (fa (rho x) ^ m <> 0) by now apply pow_nonzero.
               generalize (INR (S m)). intros k. simpl. field. split; auto.
    Qed.

    Lemma near_val e rho : near e rho -> exists v, ev e rho v.
    Proof.
      intros H. apply locally_singleton in H. destruct H as [v H]. exists v. eapply ev_ext; [|exact H].
      intros y. apply upd_id.
    Qed.
    Lemma smooth_real (e : expr) rho v : smooth e = true -> ev e rho v -> exists r, v = RtoC r.
    Proof. intros H. apply (imag_free_real toR). now apply smooth_imag_free. Qed.

    Lemma near_real e rho : smooth e = true -> near e rho -> exists r, ev e rho (RtoC r).
    Proof. intros Hs H. destruct (near_val _ _ H) as [v Hv]. destruct (smooth_real _ _ _ Hs Hv) as [r ->]. eauto. Qed.

    Lemma dv_const e rho r : (forall t, ev e (upd rho x t) (RtoC r)) -> dv e rho (RtoC 0).
    Proof.
      intros H. apply (dv_intro _ _ (fun _ => r)).
      - apply filter_forall. auto.
      - apply (is_derive_const (K:=R_AbsRing) (V:=R_NormedModule)).
    Qed.

    (** A real elementary expression that has a value near a regular point is
        differentiable there. *)
    Lemma near_dv (e : expr) : forall rho, smooth e = true -> regular rho e -> near e rho ->
      exists d, dv e rho (RtoC d).
    Proof.
      induction e as [c| |y| | | |r c d|o a IHa b IHb|o a IHa]; intros rho Hs Hr Hn; try discriminate.
      - exists 0. apply (dv_const _ _ (toR c)). reflexivity.
      - destruct (string_dec y x) as [->|Hy].
        + exists 1. apply (dv_intro _ _ (fun t => t)).
          * apply filter_forall. intros t. simpl. now rewrite upd_same.
          * apply (is_derive_id (K:=R_AbsRing)).
        + exists 0. apply (dv_const _ _ (rho y)). intros t. simpl. now rewrite upd_other.
      - exists 0. apply (dv_const _ _ (exp 1)). reflexivity.
      - exists 0. apply (dv_const _ _ PI). reflexivity.
      - assert (Ho : o <> ODeriv) by (intros ->; discriminate).
        destruct (near_bin _ _ _ _ Hn Ho) as [Na Nb]. destruct Hr as (Ra & Rb & Rp).
        assert (K : smooth a = true /\ smooth b = true) by (destruct o; try discriminate; now apply andb_prop in Hs).
        destruct K as [Sa Sb].
        destruct (IHa _ Sa Ra Na) as [da Da]. destruct (IHb _ Sb Rb Nb) as [db Db].
        destruct (near_real _ _ Sa Na) as [p Pa]. destruct (near_real _ _ Sb Nb) as [q Pb].
        destruct (near_val _ _ Hn) as [v Hv].
        destruct o; try discriminate.
        + eexists. apply dv_add; eassumption.
        + eexists. apply dv_sub; eassumption.
        + eexists. eapply dv_mul; eassumption.
        + destruct Hv as (p' & q' & H1 & H2 & H3 & _).
          pose proof (ev_fun toR _ _ _ _ Pb H2). subst q'.
          eexists. eapply dv_div; try eassumption. intros ->. now apply H3.
        + destruct Rp as [(c & z & -> & Hz)|(y & Hy & Hay)].
          * destruct Hv as (p' & q' & H1 & H2 & H3).
            pose proof (ev_fun toR _ _ _ _ Pa H1). subst p'. simpl in H2. subst q'. rewrite Hz in H3.
            eexists. eapply dv_powz; try eassumption.
            destruct (Req_dec p 0) as [->|]; [|auto]. right.
            destruct (cpow_base0_inv _ _ H3) as (r & Hr & Hr' & _). apply RtoC_inj in Hr. subst r. now apply lt_IZR.
          * pose proof (RtoC_inj _ _ (ev_fun toR _ _ _ _ Pa Hay)). subst y.
            eexists. eapply dv_exp; eassumption.
        + destruct Hv as (p' & q' & H1 & H2 & (y & w & Hy & Hw & Y1 & Y2 & Y3 & _)).
          pose proof (ev_fun toR _ _ _ _ Pa H1). pose proof (ev_fun toR _ _ _ _ Pb H2). subst p' q'.
          apply RtoC_inj in H0. apply RtoC_inj in H. subst.
          eexists. eapply dv_log; eassumption.
      - assert (Na : near a rho).
        { unfold near in *. generalize Hn. apply filter_imp. intros t [v Hv].
          destruct o; try discriminate; destruct Hv as (w & H & _); eauto. }
        assert (Sa : smooth a = true) by (destruct o; try discriminate; assumption).
        destruct (IHa _ Sa Hr Na) as [da Da]. destruct (near_real _ _ Sa Na) as [p Pa].
        destruct o; try discriminate.
        + eexists. apply dv_neg; eassumption.
        + eexists. eapply dv_sine; eassumption.
    Qed.

    Lemma parts o a b rho w : smooth (EBin o a b) = true -> regular rho (EBin o a b) -> dv (EBin o a b) rho w ->
      smooth a = true /\ smooth b = true /\ regular rho a /\ regular rho b /\
      exists da db p q v, dv a rho (RtoC da) /\ dv b rho (RtoC db) /\ ev a rho (RtoC p) /\ ev b rho (RtoC q)
                          /\ ev (EBin o a b) rho v.
    Proof.
      intros Hs Hr Hw. pose proof (dv_near _ _ _ Hw) as Hn.
      assert (Ho : o <> ODeriv) by (intros ->; discriminate).
      destruct (near_bin _ _ _ _ Hn Ho) as [Na Nb]. destruct Hr as (Ra & Rb & Rp).
      assert (K : smooth a = true /\ smooth b = true) by (destruct o; try discriminate; now apply andb_prop in Hs).
      destruct K as [Sa Sb].
      destruct (near_dv _ _ Sa Ra Na) as [da Da]. destruct (near_dv _ _ Sb Rb Nb) as [db Db].
      destruct (near_real _ _ Sa Na) as [p Pa]. destruct (near_real _ _ Sb Nb) as [q Pb].
      destruct (near_val _ _ Hn) as [v Hv]. repeat (split; [assumption|]). exists da, db, p, q, v. auto.
    Qed.

    (** *** The rules *)
    Variable S : expr -> M expr.
    Variables V D : expr -> expr -> M expr.
    Variable I : expr -> expr -> M (option expr).
    Variable multi : bool.
    Hypothesis HS : forall e r, runs (S e) r -> refines e r.
    Definition dsound (e d : expr) : Prop := forall rho w, regular rho e -> dv e rho w -> ev d rho w.
    Hypothesis HV : forall e d, smooth e = true -> runs (V e (EVar x)) d -> dsound e d.
    Hypothesis HD : forall e d, smooth e = true -> runs (D e (EVar x)) d -> dsound e d.

    Lemma diff_var_sound y d : runs (diff_var multi y (EVar x)) d -> dsound (EVar y) d.
    Proof.
      unfold diff_var. destruct (String.eqb_spec x y) as [<-|Hxy]; [|destruct multi]; intros H; minv; intros rho w _ Hw.
      - replace w with (RtoC 1).
        + apply (ev_real toR HE).
        + apply (dv_fun (EVar x) rho); auto. apply (dv_intro _ _ (fun t => t)).
          * apply filter_forall. intros t. simpl. now rewrite upd_same.
          * apply (is_derive_id (K:=R_AbsRing)).
      - exact Hw.
      - replace w with (RtoC 0).
        + apply (ev_real toR HE).
        + apply (dv_fun (EVar y) rho); auto. apply (dv_const _ _ (rho y)). intros t. simpl.
          rewrite upd_other; auto.
    Qed.

    Ltac tries :=
      repeat match goal with
             | H : runs (m_try _) _ |- _ => apply (proj1 (runs_try _ _)) in H;
               let a := fresh "d" in let s := fresh "s" in let R := fresh "T" in
               destruct H as [(a & R & ->)|(s & R & ->)]; minv
             end.

    Lemma diff_addsub_sound o a b d : o = OAdd \/ o = OSub -> smooth (EBin o a b) = true ->
      runs (diff_addsub S V o a b (EVar x)) d -> dsound (EBin o a b) d.
    Proof.
      intros Ho Hs H. unfold diff_addsub in H. minv. tries. intros rho w Hr Hw.
      destruct (parts _ _ _ _ _ Hs Hr Hw) as (Sa & Sb & Ra & Rb & da & db & p & q & v & Da & Db & Pa & Pb & Hv).
      pose proof (HV _ _ Sa T0 _ _ Ra Da) as Ea. pose proof (HV _ _ Sb T _ _ Rb Db) as Eb.
      apply (HS _ _ H). destruct Ho as [-> | ->].
      - rewrite (dv_fun _ _ _ _ Hw (dv_add _ _ _ _ _ Da Db)), RtoC_plus. now apply ev_add.
      - rewrite (dv_fun _ _ _ _ Hw (dv_sub _ _ _ _ _ Da Db)), RtoC_minus. now apply ev_sub.
    Qed.

    Lemma diff_mul_sound a b d : smooth (EMul a b) = true ->
      runs (diff_mul S V a b (EVar x)) d -> dsound (EMul a b) d.
    Proof.
      intros Hs H. unfold diff_mul in H. minv. tries. intros rho w Hr Hw.
      destruct (parts _ _ _ _ _ Hs Hr Hw) as (Sa & Sb & Ra & Rb & da & db & p & q & v & Da & Db & Pa & Pb & Hv).
      pose proof (HV _ _ Sa T0 _ _ Ra Da) as Ea. pose proof (HV _ _ Sb T _ _ Rb Db) as Eb.
      apply (HS _ _ H). rewrite (dv_fun _ _ _ _ Hw (dv_mul _ _ _ _ _ _ _ Pa Pb Da Db)), RtoC_plus, !RtoC_mult.
      apply ev_add; now apply ev_mul.
    Qed.

    Lemma diff_neg_sound a d : smooth (ENeg a) = true -> runs (diff_neg D a (EVar x)) d -> dsound (ENeg a) d.
    Proof.
      intros Hs H. unfold diff_neg in H. minv. rename Hr into Hr0. intros rho w Hr Hw.
      assert (Na : near a rho).
      { pose proof (dv_near _ _ _ Hw) as Hn. unfold near in *. generalize Hn. apply filter_imp.
        intros t (v & u & Hu & _). eauto. }
      destruct (near_dv a _ Hs Hr Na) as [da Da].
      pose proof (HD a _ Hs Hr0 _ _ Hr Da) as Ea.
      rewrite (dv_fun _ _ _ _ Hw (dv_neg _ _ _ Da)), RtoC_opp. simpl. eauto.
    Qed.

    (* reordering keeps smoothness, regularity and derivatives *)
    Lemma reorders_smooth (e r : expr) : reorders e r -> smooth e = true -> smooth r = true.
    Proof.
      induction 1 as [e|o a b a' b' H1 IH1 H2 IH2|o a b a' b' Ho H1 IH1 H2 IH2|o a a' H IH]; auto; simpl.
      - destruct o; try discriminate; rewrite !andb_true_iff; tauto.
      - destruct o; try discriminate; rewrite !andb_true_iff; tauto.
      - destruct o; try discriminate; auto.
    Qed.
    Lemma reorders_exp (e r : expr) : reorders e r -> forall c, e = EReal c -> r = EReal c.
    Proof. induction 1; auto; discriminate. Qed.
    Lemma reorders_regular rho (e r : expr) : reorders e r -> regular rho e -> regular rho r.
    Proof.
      induction 1 as [e|o a b a' b' H1 IH1 H2 IH2|o a b a' b' Ho H1 IH1 H2 IH2|o a a' H IH]; auto; simpl.
      - intros (Ra & Rb & Rp). split; [auto|split; [auto|]]. destruct o; auto.
        destruct Rp as [(c & z & -> & Hz)|(y & Hy & Hv)].
        + left. exists c, z. split; auto. now apply (reorders_exp _ _ H2).
        + right. exists y. split; auto. now apply (reorders_ev toR _ _ H1).
      - intros (Ra & Rb & Rp). split; [auto|split; [auto|]].
        destruct o; auto. destruct Ho as [K|[K|K]]; discriminate.
    Qed.
    Lemma reorders_dv rho (e r : expr) w : reorders e r -> dv e rho w -> dv r rho w.
    Proof.
      intros H. apply (refines_deriv toR). intros rho' v' Hv. now apply (reorders_ev toR _ _ H).
    Qed.

    Lemma fits_real (c : expr) : fits PReal c -> exists n, c = EReal n.
    Proof. inversion 1; eauto. Qed.

    Lemma fits_bin o p q (c : expr) : fits (PBin o p q) c -> exists a b, c = EBin o a b /\ fits p a /\ fits q b.
    Proof. inversion 1; eauto 6. Qed.

    Lemma const_real c rho d : dv (EReal c) rho (RtoC d) -> d = 0.
    Proof.
      intros H. apply RtoC_inj. apply (dv_fun _ _ _ _ H). now apply (dv_const _ _ (toR c)).
    Qed.

    Definition qsound (r : expr -> expr -> rule) : Prop :=
      forall q e rho w, smooth q = true -> regular rho q -> dv q rho w -> runs (r q (EVar x)) (Some e) -> ev e rho w.

    Ltac fin := match goal with K : runs (S _) ?e |- ev ?e _ _ => apply (HS _ _ K) end.
    Ltac fin' := match goal with K : refines _ ?e |- ev ?e _ _ => apply K end.
    Ltac useV := match goal with K : runs (V ?e _) ?t, Ss : smooth ?e = true, R : regular ?rho ?e, Dd : dv ?e ?rho ?d
      |- ev ?t ?rho ?d => exact (HV _ _ Ss K _ _ R Dd) end.
    Lemma diff_div_real_sound : qsound (diff_div_real S D).
    Proof.
      intros q e rho w Hs Hr Hw H. unfold diff_div_real in H.
      destruct (rcast (PBin ODiv PAny PReal) q) as [q'|] eqn:E; [|minv].
      destruct (rcast_sound _ _ _ E) as [F Ro]. destruct (fits_bin _ _ _ _ F) as (l & r & -> & Fl & Fr).
      destruct (fits_real _ Fr) as [c ->]. minv.
      apply (reorders_smooth _ _ Ro) in Hs. apply (reorders_regular _ _ _ Ro) in Hr. apply (reorders_dv _ _ _ _ Ro) in Hw.
      destruct (parts _ _ _ _ _ Hs Hr Hw) as (Sa & Sb & Ra & Rb & da & db & p & k & v & Da & Db & Pa & Pb & Hv).
      destruct Hv as (p' & k' & _ & Hk & Hk0 & _). pose proof (ev_fun toR _ _ _ _ Pb Hk). subst k'.
      assert (Hk1 : k <> 0) by (intros ->; now apply Hk0).
      pose proof (const_real _ _ _ Db). subst db.
      rewrite (dv_fun _ _ _ _ Hw (dv_div _ _ _ _ _ _ _ Pa Pb Hk1 Da Db)).
      replace ((da * k - p * 0) / (k * k)) with (da / k) by (field; assumption).
      rewrite RtoC_div by assumption.
      fin. apply ev_div; auto. apply (HS _ _ Hr1). now apply (HD _ _ Sa Hr0).
    Qed.
    Lemma diff_div_mul_sound : qsound (diff_div_mul S D).
    Proof.
      intros q e rho w Hs Hr Hw H. unfold diff_div_mul in H.
      destruct (rcast (PBin OMul PAny PReal) q) as [q'|] eqn:E; [|minv].
      destruct (rcast_sound _ _ _ E) as [F Ro]. destruct (fits_bin _ _ _ _ F) as (l & r & -> & Fl & Fr).
      destruct (fits_real _ Fr) as [c ->]. minv.
      apply (reorders_smooth _ _ Ro) in Hs. apply (reorders_regular _ _ _ Ro) in Hr. apply (reorders_dv _ _ _ _ Ro) in Hw.
      destruct (parts _ _ _ _ _ Hs Hr Hw) as (Sa & Sb & Ra & Rb & da & db & p & k & v & Da & Db & Pa & Pb & Hv).
      pose proof (const_real _ _ _ Db). subst db.
      rewrite (dv_fun _ _ _ _ Hw (dv_mul _ _ _ _ _ _ _ Pa Pb Da Db)).
      replace (da * k + p * 0) with (da * k) by ring. rewrite RtoC_mult.
      fin. apply ev_mul; auto. apply (HS _ _ Hr1). now apply (HD _ _ Sa Hr0).
    Qed.
    Lemma diff_div_quot_sound : qsound (diff_div_quot S D).
    Proof.
      intros q e rho w Hs Hr Hw H. unfold diff_div_quot in H.
      destruct (rcast pDiv q) as [q'|] eqn:E; [|minv].
      destruct (rcast_sound _ _ _ E) as [F Ro]. destruct (fits_bin _ _ _ _ F) as (l & r & -> & Fl & Fr). minv.
      apply (reorders_smooth _ _ Ro) in Hs. apply (reorders_regular _ _ _ Ro) in Hr. apply (reorders_dv _ _ _ _ Ro) in Hw.
      destruct (parts _ _ _ _ _ Hs Hr Hw) as (Sa & Sb & Ra & Rb & da & db & p & k & v & Da & Db & Pa & Pb & Hv).
      destruct Hv as (p' & k' & _ & Hk & Hk0 & _). pose proof (ev_fun toR _ _ _ _ Pb Hk). subst k'.
      assert (Hk1 : k <> 0) by (intros ->; now apply Hk0).
      rewrite (dv_fun _ _ _ _ Hw (dv_div _ _ _ _ _ _ _ Pa Pb Hk1 Da Db)).
      rewrite RtoC_div by now apply Rmult_integral_contrapositive_currified.
      rewrite RtoC_minus, !RtoC_mult.
      repeat match goal with
             | K : runs (D _ _) _ |- _ => apply HD in K; auto
             | K : runs (S _) _ |- _ => apply HS in K
             end.
      repeat match goal with
             | K : dsound ?l _, R : regular ?r ?l, Dl : dv ?l ?r _ |- _ => specialize (K _ _ R Dl)
             end.
      fin'. apply ev_div.
      - repeat match goal with K : refines _ ?t |- ev ?t _ _ => apply K end.
        eapply ev_eq; [apply ev_sub; repeat match goal with K : refines _ ?t |- ev ?t _ _ => apply K end;
          apply ev_mul; repeat match goal with K : refines _ ?t |- ev ?t _ _ => apply K end; eassumption|].
        ring.
      - repeat match goal with K : refines _ ?t |- ev ?t _ _ => apply K end.
        apply ev_mul; repeat match goal with K : refines _ ?t |- ev ?t _ _ => apply K end; assumption.
      - now apply Cmult_neq_0'.
    Qed.

    Lemma first_q rs def q e rho w : List.Forall qsound rs -> smooth q = true -> regular rho q -> dv q rho w ->
      (runs (def q (EVar x)) e -> ev e rho w) ->
      runs (first_rule rs def q (EVar x)) e -> ev e rho w.
    Proof.
      intros Hrs Hs Hr Hw Hd. induction Hrs as [|r rs Hq _ IH]; simpl; auto.
      intros H. minv. destruct y as [e1|]; minv; auto. now apply (Hq _ _ _ _ Hs Hr Hw).
    Qed.

    Lemma diff_div_sound a b d : smooth (EDiv a b) = true ->
      runs (diff_div S D a b (EVar x)) d -> dsound (EDiv a b) d.
    Proof.
      intros Hs H. unfold diff_div in H. minv. intros rho w Hr' Hw.
      match goal with K : (smooth _ && safe_powers _)%bool = true |- _ => apply andb_prop in K; destruct K as [K1 K2] end.
      pose proof (HS _ _ Hr) as Hq.
      pose proof (refines_deriv toR _ _ x Hq _ _ Hw) as Hw'.
      destruct (near_val _ _ (dv_near _ _ _ Hw')) as [v Hv].
      pose proof (safe_regular _ _ _ K2 Hv K1) as Rq.
      eapply first_q; [|exact K1|exact Rq|exact Hw'| |exact H].
      - repeat constructor; auto using diff_div_real_sound, diff_div_mul_sound, diff_div_quot_sound.
      - cbv beta. intros H'. minv. exact Hw.
    Qed.

    (** Exponent *)
    Lemma clog_e p : 0 < p -> clog (RtoC (exp 1)) (RtoC p) (RtoC (ln p)).
    Proof.
      intros Hp. exists (exp 1), p. repeat split; auto; [apply exp_pos|pose proof exp_ineq1 1; lra|].
      rewrite ln_exp. f_equal. field.
    Qed.
    Lemma ev_ln a rho p : ev a rho (RtoC p) -> 0 < p -> ev (ELog EEuler a) rho (RtoC (ln p)).
    Proof. intros Ha Hp. eapply ev_log; [reflexivity|exact Ha|]. now apply clog_e. Qed.

    Lemma reg_pos a b rho p : regular rho (EExp a b) -> ev a rho (RtoC p) -> (forall c, b <> EReal c) -> 0 < p.
    Proof.
      intros (_ & _ & [(c & z & -> & _)|(y & Hy & Hv)]) Hp Hb; [now destruct (Hb c)|].
      pose proof (RtoC_inj _ _ (ev_fun toR _ _ _ _ Hp Hv)). now subst.
    Qed.

    Lemma diff_exp_poly_sound f g e : smooth (EExp f g) = true ->
      runs (diff_exp_poly S V (EExp f g) (EVar x)) (Some e) -> dsound (EExp f g) e.
    Proof.
      intros Hs H rho w Hr Hw. unfold diff_exp_poly in H.
      destruct (rcast (PBin OExp PAny PReal) (EExp f g)) as [q'|] eqn:E; [|minv].
      destruct (rcast_sound _ _ _ E) as [F Ro]. destruct (fits_bin _ _ _ _ F) as (a & r & -> & Fl & Fr).
      destruct (fits_real _ Fr) as [n ->]. minv.
      apply (reorders_smooth _ _ Ro) in Hs. apply (reorders_regular _ _ _ Ro) in Hr. apply (reorders_dv _ _ _ _ Ro) in Hw.
      destruct (parts _ _ _ _ _ Hs Hr Hw) as (Sa & Sb & Ra & Rb & da & db & p & k & v & Da & Db & Pa & Pb & Hv).
      pose proof (const_real _ _ _ Db). subst db. simpl in Pb. apply RtoC_inj in Pb. subst k.
      assert (Hn1 : toR n <> 1).
      { intros K. match goal with K' : n_eqb n n1 = false |- _ =>
          rewrite <- not_true_iff_false, (ex_eqb N toR HE) in K'; apply K'; unfold n1; now rewrite (toR_Z toR HE) end. }
      assert (Ed : ev y0 rho (RtoC da)) by useV.
      fin.
      destruct Hr as (_ & _ & [(c & z & Ec & Hz)|(u & Hu & Hua)]).
      - injection Ec as <-. destruct Hv as (p' & k' & Hp' & Hk' & Hc).
        pose proof (ev_fun toR _ _ _ _ Pa Hp'). subst p'. simpl in Hk'. subst k'. rewrite Hz in Hc.
        assert (Hp : p <> 0 \/ (0 < z)%Z).
        { destruct (Req_dec p 0) as [->|]; [|auto]. right.
          destruct (cpow_base0_inv _ _ Hc) as (r & Hr & Hr' & _). apply RtoC_inj in Hr. subst r. now apply lt_IZR. }
        rewrite (dv_fun _ _ _ _ Hw (dv_powz _ _ _ _ _ _ Hz Pa Hp Da)).
        assert (z <> 1)%Z by (intros ->; now apply Hn1).
        eapply ev_eq.
        + apply ev_mul; [apply ev_mul; [|reflexivity]|exact Ed].
          eapply ev_exp; [exact Pa|simpl; reflexivity|]. rewrite (ex_sub N toR HE). unfold n1. rewrite (toR_Z toR HE), Hz, <- minus_IZR.
          apply cpow_cpowz. destruct Hp as [Hp|Hp]; [left; now apply RtoC_neq|right; lia].
        + rewrite Hz. replace (cpowz (RtoC p) (z - 1)) with (RtoC (powerRZ p (z - 1))).
          * rewrite <- !RtoC_mult. f_equal. ring.
          * destruct (Req_dec p 0) as [->|Hp0]; [|now rewrite cpowz_R].
            destruct Hp as [Hp|Hp]; [congruence|]. rewrite cpowz_0 by lia. f_equal.
            destruct (z - 1)%Z eqn:Ez; try lia. simpl. apply pow_i. lia.
      - pose proof (RtoC_inj _ _ (ev_fun toR _ _ _ _ Pa Hua)). subst u.
        assert (Pb : ev (EReal n) rho (RtoC (toR n))) by reflexivity.
        rewrite (dv_fun _ _ _ _ Hw (dv_exp _ _ _ _ _ _ _ Pa Pb Hu Da Db)).
        eapply ev_eq.
        + apply ev_mul; [apply ev_mul; [|reflexivity]|exact Ed].
          eapply ev_exp; [exact Pa|simpl; reflexivity|]. now apply cpow_real_iff.
        + rewrite (ex_sub N toR HE). unfold n1. rewrite (toR_Z toR HE), <- !RtoC_mult. f_equal.
          unfold Rminus. rewrite Rpower_plus, Rpower_Ropp, Rpower_1 by assumption. field. lra.
    Qed.


    Lemma not_poly f g : runs (diff_exp_poly S V (EExp f g) (EVar x)) None -> forall c, g <> EReal c.
    Proof.
      intros H c ->. unfold diff_exp_poly in H. cbn [rcast binop_eqb] in H. minv.
    Qed.

    Lemma diff_exp_real_sound f g e : smooth (EExp f g) = true -> (forall c, g <> EReal c) ->
      runs (diff_exp_real S V (EExp f g) (EVar x)) (Some e) -> dsound (EExp f g) e.
    Proof.
      intros Hs Hg H rho w Hr Hw. unfold diff_exp_real in H.
      destruct (rcast (PBin OExp PReal PAny) (EExp f g)) as [q'|] eqn:E; [|minv].
      simpl in E. destruct f; try discriminate. simpl in E. injection E as <-. minv.
      destruct (parts _ _ _ _ _ Hs Hr Hw) as (Sa & Sb & Ra & Rb & da & db & p & k & v & Da & Db & Pa & Pb & Hv).
      pose proof (const_real _ _ _ Da). subst da.
      pose proof (reg_pos _ _ _ _ Hr Pa Hg) as Hp.
      assert (Ed : ev y rho (RtoC db)) by useV.
      rewrite (dv_fun _ _ _ _ Hw (dv_exp _ _ _ _ _ _ _ Pa Pb Hp Da Db)). fin.
      eapply ev_eq.
      - apply ev_mul; [eapply ev_exp; [exact Pa|exact Pb|now apply cpow_real_iff]|].
        apply ev_mul; [eapply ev_ln; eassumption|exact Ed].
      - rewrite <- !RtoC_mult. f_equal. field. lra.
    Qed.

    Lemma diff_exp_euler_sound f g e : smooth (EExp f g) = true -> (forall c, g <> EReal c) ->
      runs (diff_exp_euler S V (EExp f g) (EVar x)) (Some e) -> dsound (EExp f g) e.
    Proof.
      intros Hs Hg H rho w Hr Hw. unfold diff_exp_euler in H.
      destruct (rcast (PBin OExp PEuler PAny) (EExp f g)) as [q'|] eqn:E; [|minv].
      simpl in E. destruct f; try discriminate. simpl in E. injection E as <-. minv.
      destruct (parts _ _ _ _ _ Hs Hr Hw) as (Sa & Sb & Ra & Rb & da & db & p & k & v & Da & Db & Pa & Pb & Hv).
      assert (da = 0). { apply RtoC_inj. apply (dv_fun _ _ _ _ Da). now apply (dv_const _ _ (exp 1)). } subst da.
      pose proof (reg_pos _ _ _ _ Hr Pa Hg) as Hp.
      assert (Ed : ev y rho (RtoC db)) by useV.
      rewrite (dv_fun _ _ _ _ Hw (dv_exp _ _ _ _ _ _ _ Pa Pb Hp Da Db)). fin.
      eapply ev_eq.
      - apply ev_mul; [eapply ev_exp; [exact Pa|exact Pb|now apply cpow_real_iff]|exact Ed].
      - simpl in Pa. apply RtoC_inj in Pa. subst p. rewrite ln_exp. rewrite <- !RtoC_mult. f_equal. field. lra.
    Qed.

    Lemma diff_exp_var_sound f g e : smooth (EExp f g) = true -> (forall c, g <> EReal c) ->
      runs (diff_exp_var S V (EExp f g) (EVar x)) (Some e) -> dsound (EExp f g) e.
    Proof.
      intros Hs Hg H rho w Hr Hw. unfold diff_exp_var in H.
      destruct (rcast (PBin OExp PVar PAny) (EExp f g)) as [q'|] eqn:E; [|minv].
      simpl in E. destruct f as [| |y| | | | | |]; try discriminate. simpl in E. injection E as <-.
      destruct (String.eqb_spec y x) as [Hy|Hy]; minv.
      destruct (parts _ _ _ _ _ Hs Hr Hw) as (Sa & Sb & Ra & Rb & da & db & p & k & v & Da & Db & Pa & Pb & Hv).
      assert (da = 0).
      { apply RtoC_inj. apply (dv_fun _ _ _ _ Da). apply (dv_const _ _ (rho y)). intros t. simpl. now rewrite upd_other. }
      subst da.
      pose proof (reg_pos _ _ _ _ Hr Pa Hg) as Hp.
      assert (Ed : ev y0 rho (RtoC db)) by useV.
      rewrite (dv_fun _ _ _ _ Hw (dv_exp _ _ _ _ _ _ _ Pa Pb Hp Da Db)). fin.
      eapply ev_eq.
      - apply ev_mul; [eapply ev_exp; [exact Pa|exact Pb|now apply cpow_real_iff]|].
        apply ev_mul; [eapply ev_ln; eassumption|exact Ed].
      - rewrite <- !RtoC_mult. f_equal. field. lra.
    Qed.

    Lemma diff_exp_gen_sound f g e : smooth (EExp f g) = true -> (forall c, g <> EReal c) ->
      runs (diff_exp_gen S V f g (EVar x)) e -> dsound (EExp f g) e.
    Proof.
      intros Hs Hg H. unfold diff_exp_gen in H. minv. rename Hr into Hf. rename Hr0 into Hdg. intros rho w Hr Hw.
      destruct (parts _ _ _ _ _ Hs Hr Hw) as (Sa & Sb & Ra & Rb & da & db & p & k & v & Da & Db & Pa & Pb & Hv).
      pose proof (reg_pos _ _ _ _ Hr Pa Hg) as Hp.
      assert (Ef : ev y rho (RtoC da)) by useV.
      assert (Eg : ev y0 rho (RtoC db)) by useV.
      rewrite (dv_fun _ _ _ _ Hw (dv_exp _ _ _ _ _ _ _ Pa Pb Hp Da Db)). fin.
      eapply ev_eq.
      - apply ev_mul; [eapply ev_exp; [exact Pa|exact Pb|now apply cpow_real_iff]|].
        apply ev_add; [apply ev_div; [apply ev_mul; [exact Pb|exact Ef]|exact Pa|]|apply ev_mul; [exact Eg|eapply ev_ln; eassumption]].
        apply RtoC_neq. lra.
      - rewrite <- !RtoC_mult, <- RtoC_div, <- RtoC_plus, <- RtoC_mult by lra. f_equal.
    Qed.

    Lemma diff_exp_sound f g e : smooth (EExp f g) = true ->
      runs (diff_exp S V f g (EVar x)) e -> dsound (EExp f g) e.
    Proof.
      intros Hs H. unfold diff_exp, first_rule in H. minv.
      destruct y as [e1|]; minv; [now apply diff_exp_poly_sound|]. pose proof (not_poly _ _ Hr) as Hg.
      destruct y as [e1|]; minv; [now apply diff_exp_real_sound|].
      destruct y as [e1|]; minv; [now apply diff_exp_euler_sound|].
      destruct y as [e1|]; minv; [now apply diff_exp_var_sound|].
      now apply diff_exp_gen_sound.
    Qed.

    (** Log *)
    Lemma simp_or_keep_sound e r : runs (simp_or_keep S e) r -> refines e r.
    Proof.
      unfold simp_or_keep. intros H. minv. tries; [now apply HS|]. now intros rho v.
    Qed.

    Lemma diff_log_sound b a d : smooth (ELog b a) = true ->
      runs (diff_log S V b a (EVar x)) d -> dsound (ELog b a) d.
    Proof.
      intros Hs H rho w Hr Hw. unfold diff_log in H.
      destruct (parts _ _ _ _ _ Hs Hr Hw) as (Sb & Sa & Rb & Ra & db & da & q & p & v & Db & Da & Pb & Pa & Hv).
      destruct Hv as (q' & p' & H1 & H2 & (y & u & Hy & Hu & Y1 & Y2 & Y3 & _)).
      pose proof (ev_fun toR _ _ _ _ Pb H1). pose proof (ev_fun toR _ _ _ _ Pa H2). subst q' p'.
      apply RtoC_inj in H0. apply RtoC_inj in H3. subst y u.
      pose proof (ln_neq_0' _ Y1 Y2) as Hl.
      rewrite (dv_fun _ _ _ _ Hw (dv_log _ _ _ _ _ _ _ Pb Pa Y3 Y1 Y2 Db Da)).
      destruct (rcast PEuler b) as [e|] eqn:E.
      - destruct b; try discriminate. minv. unfold diff_deriv in Hr0. minv. tries.
        assert (db = 0). { apply RtoC_inj. apply (dv_fun _ _ _ _ Db). now apply (dv_const _ _ (exp 1)). } subst db.
        apply (simp_or_keep_sound _ _ H).
        eapply ev_eq.
        + apply ev_mul; [apply ev_div; [apply (ev_real toR HE)|exact Pa|apply RtoC_neq; lra]|].
          apply (HS _ _ T0). exact (HV _ _ Sa T _ _ Ra Da).
        + simpl in Pb. apply RtoC_inj in Pb. subst q. rewrite ln_exp. rewrite <- RtoC_div, <- RtoC_mult by lra.
          f_equal. field. pose proof (exp_pos 1). split; lra.
      - destruct (rcast PReal b) as [e|] eqn:E'.
        + destruct b; try discriminate. minv. pose proof (const_real _ _ _ Db). subst db.
          apply (simp_or_keep_sound _ _ H).
          eapply ev_eq.
          * apply ev_mul; [apply ev_div; [apply (ev_real toR HE)|apply ev_mul; [exact Pa|eapply ev_ln; eassumption]|]|eapply HV; [exact Sa| |exact Ra|exact Da]; eassumption].
            apply Cmult_neq_0'; apply RtoC_neq; lra.
          * rewrite <- RtoC_mult, <- RtoC_div, <- RtoC_mult by (apply Rmult_integral_contrapositive_currified; lra).
            f_equal. field. lra.
        + apply (simp_or_keep_sound _ _ H).
          pose proof (dv_ln _ _ _ _ Pa Y3 Da) as La. pose proof (dv_ln _ _ _ _ Pb Y1 Db) as Lb.
          eapply ev_eq.
          * apply ev_div.
            -- apply ev_sub; (apply ev_mul; [eapply ev_ln; eassumption|]); [exact La|exact Lb].
            -- eapply ev_exp; [eapply ev_ln; eassumption|apply (ev_real toR HE)|apply cpow_2].
            -- apply Cmult_neq_0'; apply RtoC_neq; lra.
          * rewrite <- !RtoC_mult, <- RtoC_minus, <- RtoC_div by (apply Rmult_integral_contrapositive_currified; lra).
            f_equal. field. lra.
    Qed.

    Lemma diff_step_sound e d : smooth e = true ->
      runs (diff_step S V D I multi e (EVar x)) d -> dsound e d.
    Proof.
      destruct e as [c| |y| | | |r c l|o a b|o a]; intros Hs H; try discriminate; simpl in H.
      - minv. intros rho w _ Hw. rewrite (dv_fun _ _ _ _ Hw (dv_const (EReal c) rho (toR c) (fun _ => eq_refl))).
        apply (ev_real toR HE).
      - now apply diff_var_sound.
      - minv. intros rho w _ Hw. rewrite (dv_fun _ _ _ _ Hw (dv_const EEuler rho (exp 1) (fun _ => eq_refl))).
        apply (ev_real toR HE).
      - minv. intros rho w _ Hw. rewrite (dv_fun _ _ _ _ Hw (dv_const EPi rho PI (fun _ => eq_refl))).
        apply (ev_real toR HE).
      - destruct o; try discriminate.
        + apply diff_addsub_sound in H; auto.
        + apply diff_addsub_sound in H; auto.
        + now apply diff_mul_sound.
        + now apply diff_div_sound.
        + now apply diff_exp_sound.
        + now apply diff_log_sound.
      - destruct o; try discriminate; minv. now apply diff_neg_sound.
    Qed.
  End At.

  (** *** The knot *)
  Lemma differentiate_with_sound V x e d :
    (forall e d, smooth e = true -> runs (V e (EVar x)) d -> dsound x e d) ->
    smooth e = true -> runs (differentiate_with V e (EVar x)) d -> dsound x e d.
  Proof.
    intros HV Hs H. unfold differentiate_with in H. minv. apply (proj1 (runs_try _ _)) in Hr.
    destruct Hr as [(a & R1 & ->)|(s & R1 & ->)]; minv.
    - now apply HV.
    - intros rho w _ Hw. exact Hw.
  Qed.

  Theorem knot_sound n :
    (forall prefer e r, runs (simp n prefer e) r -> refines e r) /\
    (forall multi x e d, smooth e = true -> runs (diff n multi e (EVar x)) d -> dsound x e d).
  Proof.
    induction n as [|n [IHs IHd]].
    - split; intros; simpl in *; exfalso; eapply runs_oof; eassumption.
    - split.
      + intros prefer e r H. simpl in H.
        eapply (simp_step_sound toR HE (simp n prefer)); [exact (IHs prefer)| | |exact H].
        * intros x r' Hr. destruct n; simpl in Hr; minv. reflexivity.
        * intros e' x d Hs Hp Hd rho w Hw.
          destruct (near_val _ _ _ (dv_near _ _ _ _ Hw)) as [v Hv].
          eapply differentiate_with_sound; [|exact Hs|exact Hd| |exact Hw].
          -- intros e1 d1. apply IHd.
          -- eapply safe_regular; eassumption.
      + intros multi x e d Hs H. simpl in H.
        eapply diff_step_sound; [exact (IHs false)| | |exact Hs|exact H].
        * intros e1 d1. apply IHd.
        * intros e1 d1 Hs1 Hd1. eapply differentiate_with_sound; [|exact Hs1|exact Hd1].
          intros e2 d2. apply IHd.
  Qed.
End Dv.
