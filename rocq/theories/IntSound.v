(** Integrate gives an antiderivative, as long as no ghost event is recorded. *)
From Coq Require Import String Bool ZArith Reals Lra Lia.
From Coquelicot Require Import Coquelicot.
From Coq Require Import List.
From Verif Require Import Base Num Expr Ghost Simplify Calculus Spec TreeProofs PowProofs SemProofs MonadProofs
  SimplifySound DiffSound.
Import ListNotations.
Open Scope R_scope.

Section Int.
  Context {num : Type} {N : NumOps num}.
  Variable toR : num -> R.
  Hypothesis HE : Exact N toR.
  Notation expr := (expr num).
  Notation ev := (ev toR).
  Notation regular := (regular toR).
  Notation refines := (refines toR).
  Variable x : string.
  Hypothesis HxC : x <> "C"%string.
  Notation dv := (dv toR x).
  Notation near := (near toR x).

  (** Wherever [e] has values near a point and a real value there, that value
      is the derivative of [r]. *)
  Definition AD (e r : expr) : Prop :=
    forall rho v, near e rho -> ev e rho (RtoC v) -> dv r rho (RtoC v).

  Lemma near_refines e e' rho : refines e e' -> near e rho -> near e' rho.
  Proof. intros H. unfold DiffSound.near. apply filter_imp. intros t [v Hv]. eauto. Qed.
  Lemma dv_refines e e' rho w : refines e e' -> dv e rho w -> dv e' rho w.
  Proof.
    intros H (f & d & Hf & Hd & ->). apply (dv_intro _ _ _ _ f); auto.
    generalize Hf. apply filter_imp. intros t. apply H.
  Qed.
  Lemma AD_post e r r' : AD e r -> refines r r' -> AD e r'.
  Proof. intros H K rho v Hn Hv. eapply dv_refines; eauto. Qed.
  Lemma AD_pre e e' r : refines e e' -> AD e' r -> AD e r.
  Proof. intros K H rho v Hn Hv. apply H; eauto using near_refines. Qed.
  Lemma refines_refl e : refines e e.
  Proof. now intros rho v. Qed.

  Lemma dv_self rho : dv (EVar x) rho (RtoC 1).
  Proof.
    apply (dv_intro _ _ _ _ (fun t => t)).
    - apply filter_forall. intros t. simpl. now rewrite upd_same.
    - apply (is_derive_id (K:=R_AbsRing)).
  Qed.
  Lemma dv_other y rho : y <> x -> dv (EVar y) rho (RtoC 0).
  Proof. intros H. apply (dv_const _ _ _ _ (rho y)). intros t. simpl. now rewrite upd_other. Qed.
  Lemma dv_lit c rho : dv (EReal c) rho (RtoC 0).
  Proof. now apply (dv_const _ _ _ _ (toR c)). Qed.
  Lemma dv_C rho : dv C_ rho (RtoC 0).
  Proof. apply dv_other. congruence. Qed.
  Lemma dv_eq e rho v w : dv e rho v -> v = w -> dv e rho w.
  Proof. now intros H <-. Qed.

  (** A constant summand can be dropped. *)
  Lemma const_value c : const_for (EVar x) c = true ->
    forall rho, exists k, forall t w, ev c (upd rho x t) w -> w = RtoC k.
  Proof.
    intros H rho. destruct c as [c| |y| | | | | |]; try discriminate.
    - exists (toR c). auto.
    - simpl in H. apply negb_true_iff, String.eqb_neq in H. exists (rho y). intros t w Hw. simpl in Hw.
      rewrite upd_other in Hw; auto.
  Qed.
  Lemma drop_const f c rho w : const_for (EVar x) c = true -> dv (EAdd f c) rho w -> dv f rho w.
  Proof.
    intros Hc (F & d & HF & Hd & ->). destruct (const_value c Hc rho) as [k Hk].
    apply (dv_intro _ _ _ _ (fun t => F t - k)).
    - generalize HF. apply filter_imp. intros t (p & q & Hp & Hq & E). rewrite (Hk _ _ Hq) in E.
      replace (RtoC (F t - k)) with p; [exact Hp|]. rewrite RtoC_minus, E. ring.
    - replace d with (d - 0) by ring. apply (is_derive_minus F (fun _ => k)); auto.
      apply (is_derive_const (K:=R_AbsRing) (V:=R_NormedModule)).
  Qed.

  Lemma cast_bin o p q (e a b : expr) : as_bin (rcast (PBin o p q) e) = Some (a, b) ->
    refines e (EBin o a b) /\ refines (EBin o a b) e /\ fits p a /\ fits q b.
  Proof.
    destruct (rcast (PBin o p q) e) as [r|] eqn:E; [|discriminate]. intros H.
    destruct (rcast_sound _ _ _ E) as [F Ro].
    inversion F as [| | | | | | | |o' p' q' a' b' Fa Fb|]; subst. injection H as -> ->.
    split; [|split; [|split; assumption]]; intros rho v Hv; now apply (reorders_ev toR _ _ Ro).
  Qed.

  Lemma AD_drop e r p q f c : as_bin (rcast (PBin OAdd p q) r) = Some (f, c) -> const_for (EVar x) c = true ->
    AD e r -> AD e f.
  Proof.
    intros H Hc HA rho v Hn Hv. apply cast_bin in H. destruct H as (H & _).
    eapply drop_const; [exact Hc|]. eapply dv_refines; [exact H|]. now apply HA.
  Qed.

  (** Values at the point from [near]. *)
  Lemma bin_parts o a b rho : o <> ODeriv -> near (EBin o a b) rho -> near a rho /\ near b rho.
  Proof. intros Ho H. now apply (near_bin toR x o a b rho H Ho). Qed.

  Variable S : expr -> M expr.
  Variable D : expr -> expr -> M expr.
  Variable I : expr -> expr -> M (option expr).
  Hypothesis HS : forall e r, runs (S e) r -> refines e r.
  Hypothesis HD : forall e d, smooth e = true -> runs (D e (EVar x)) d -> dsound toR x e d.
  Hypothesis HI : forall e r, runs (I e (EVar x)) (Some r) -> AD e r.
  Hypothesis HSI : forall a r, runs (S (EInt a (EVar x))) r -> AD a r.

  Lemma runs_flag b u : runs (flag b) u -> b = false.
  Proof. apply runs_emit. Qed.
  Lemma runs_deref e r : runs (deref (I e (EVar x))) r -> AD e r.
  Proof. unfold deref. intros H. minv. destruct y; minv. now apply HI. Qed.
  Lemma runs_some m r : runs (some m) (Some r) -> @runs expr m r.
  Proof. unfold some. intros H. minv. assumption. Qed.
  Lemma runs_give_up e r : ~ runs (@give_up num e) r.
  Proof. unfold give_up. intros H. minv. apply runs_flag in Hr. discriminate. Qed.
  Lemma runs_unev e v r : ~ runs (@unev num e v) r.
  Proof. unfold unev. intros H. minv. apply runs_flag in Hr. discriminate. Qed.

  Ltac inv :=
    repeat (minv; match goal with
    | H : runs (give_up _) _ |- _ => destruct (runs_give_up _ _ H)
    | H : runs (unev _ _) _ |- _ => destruct (runs_unev _ _ _ H)
    | H : runs (flag _) _ |- _ => apply runs_flag in H
    | H : runs (some _) (Some _) |- _ => apply runs_some in H
    | H : runs (m_try _) _ |- _ => apply (proj1 (runs_try _ _)) in H;
        let a := fresh "d" in let s := fresh "s" in let R := fresh "T" in
        destruct H as [(a & R & ->)|(s & R & ->)]
    | H : runs (deref _) _ |- _ => apply runs_deref in H
    | H : runs (S (EInt _ (EVar _))) _ |- _ => apply HSI in H
    | H : runs (S _) _ |- _ => apply HS in H
    end); minv.

  Lemma AD_real c r : runs (int_real S c x) (Some r) -> AD (EReal c) r.
  Proof.
    unfold int_real. destruct (n_eqb c n0) eqn:E; intros H; inv; intros rho v Hn Hv; simpl in Hv; apply RtoC_inj in Hv; subst v.
    - apply (eqb_Z toR HE) in E. rewrite E. apply dv_C.
    - eapply dv_refines; [exact H|]. eapply dv_eq.
      + apply dv_add; [eapply dv_mul; [reflexivity|reflexivity|apply dv_lit|apply dv_self]|apply dv_C].
      + f_equal. ring.
  Qed.

  Lemma AD_var y r : runs (int_var S y x) (Some r) -> AD (EVar y) r.
  Proof.
    unfold int_var. destruct (String.eqb y x) eqn:E; intros H; inv; intros rho v Hn Hv; simpl in Hv; apply RtoC_inj in Hv; subst v.
    - apply String.eqb_eq in E. subst y. eapply dv_refines; [exact H|].
      eapply dv_eq.
      + apply dv_add; [|apply dv_C].
        eapply (dv_div _ _ _ _ _ (rho x * rho x) 2); [|apply (ev_real toR HE)|lra| |apply dv_lit].
        * eapply ev_exp; [reflexivity|apply (ev_real toR HE)|]. rewrite RtoC_mult. apply cpow_2.
        * eapply (dv_powz _ _ _ _ 2); [apply (toR_Z toR HE)|reflexivity|right; lia|apply dv_self].
      + f_equal. simpl. lra.
    - apply String.eqb_neq in E. eapply dv_refines; [exact H|]. eapply dv_eq.
      + apply dv_add; [eapply dv_mul; [reflexivity|reflexivity|apply dv_other; congruence|apply dv_self]|apply dv_C].
      + f_equal. ring.
  Qed.

  Lemma AD_euler r : runs (int_euler S x) (Some r) -> AD EEuler r.
  Proof.
    unfold int_euler. intros H; inv; intros rho v Hn Hv; simpl in Hv; apply RtoC_inj in Hv; subst v.
    eapply dv_refines; [exact H|]. eapply dv_eq.
    + apply dv_add; [eapply dv_mul; [reflexivity|reflexivity|now apply (dv_const _ _ _ _ (exp 1))|apply dv_self]|apply dv_C].
    + f_equal. ring.
  Qed.

  Lemma imag_free_bin o (a b : expr) : imag_free (EBin o a b) = true -> imag_free a = true /\ imag_free b = true.
  Proof. simpl. apply andb_prop. Qed.
  Lemma reorders_imag_free (e r : expr) : reorders e r -> imag_free e = imag_free r.
  Proof.
    induction 1; simpl; auto.
    - now rewrite IHreorders1, IHreorders2.
    - rewrite IHreorders1, IHreorders2. apply andb_comm.
    - destruct o; auto.
  Qed.
  Lemma cast_imag_free o p q (e a b : expr) : as_bin (rcast (PBin o p q) e) = Some (a, b) -> imag_free e = true ->
    imag_free a = true /\ imag_free b = true.
  Proof.
    destruct (rcast (PBin o p q) e) as [r|] eqn:E; [|discriminate]. intros H Hf.
    destruct (rcast_sound _ _ _ E) as [F Ro]. rewrite (reorders_imag_free _ _ Ro) in Hf.
    inversion F as [| | | | | | | |o' p' q' a' b' Fa Fb|]; subst. injection H as -> ->. now apply imag_free_bin in Hf.
  Qed.

  Lemma AD_add_node a b fa fb : imag_free a = true -> imag_free b = true -> AD a fa -> AD b fb -> AD (EAdd a b) (EAdd fa fb).
  Proof.
    intros Fa Fb Ha Hb rho v Hn Hv. destruct (bin_parts OAdd _ _ _ ltac:(discriminate) Hn) as [Na Nb].
    destruct Hv as (p & q & Hp & Hq & E).
    destruct (imag_free_real toR _ _ _ Fa Hp) as [p' ->]. destruct (imag_free_real toR _ _ _ Fb Hq) as [q' ->].
    rewrite <- RtoC_plus in E. apply RtoC_inj in E. subst v. apply dv_add; auto.
  Qed.
  Lemma AD_sub_node a b fa fb : imag_free a = true -> imag_free b = true -> AD a fa -> AD b fb -> AD (ESub a b) (ESub fa fb).
  Proof.
    intros Fa Fb Ha Hb rho v Hn Hv. destruct (bin_parts OSub _ _ _ ltac:(discriminate) Hn) as [Na Nb].
    destruct Hv as (p & q & Hp & Hq & E).
    destruct (imag_free_real toR _ _ _ Fa Hp) as [p' ->]. destruct (imag_free_real toR _ _ _ Fb Hq) as [q' ->].
    rewrite <- RtoC_minus in E. apply RtoC_inj in E. subst v. apply dv_sub; auto.
  Qed.
  Lemma AD_plus_C e f : AD e f -> AD e (EAdd f C_).
  Proof. intros H rho v Hn Hv. eapply dv_eq; [apply dv_add; [apply (H rho v); assumption|apply dv_C]|]. f_equal. ring. Qed.

  Lemma AD_add a b r : runs (int_add S I a b (EVar x)) (Some r) -> AD (EAdd a b) r.
  Proof.
    unfold int_add. intros H. inv.
    eapply AD_pre; [exact T|].
    destruct (as_bin (rcast pAdd d)) as [[m l]|] eqn:Em; inv.
    - destruct (cast_imag_free _ _ _ _ _ _ Em Hr) as [Fm Fl]. apply cast_bin in Em. destruct Em as (Em & _).
      destruct (as_bin (rcast pAdd y0)) as [[fl cl]|] eqn:El; inv.
      assert (K : forall fr cr, as_bin (rcast pAdd y1) = Some (fr, cr) ->
          const_for (EVar x) cl && const_for (EVar x) cr = true -> AD d (EAdd (EAdd fl fr) C_)).
      { intros fr cr Er Hc. apply andb_prop in Hc. destruct Hc as [C1 C2].
        pose proof (AD_drop _ _ _ _ _ _ El C1 Hr0) as A1. pose proof (AD_drop _ _ _ _ _ _ Er C2 Hr1) as A2.
        apply AD_plus_C. eapply AD_pre; [exact Em|].
        eapply AD_pre; [|apply AD_add_node; [exact Fl|exact Fm|exact A1|exact A2]].
        intros rho v (p & q & Hp & Hq & ->). exists q, p. repeat split; auto. ring. }
      destruct (as_bin (rcast pAdd y1)) as [[fr cr]|] eqn:Er; inv; eauto using AD_post.
    - eapply AD_post; eauto.
  Qed.

  Lemma AD_sub a b r : runs (int_sub S I a b (EVar x)) (Some r) -> AD (ESub a b) r.
  Proof.
    unfold int_sub. intros H. inv.
    eapply AD_pre; [exact T|].
    destruct (as_bin (rcast pSub d)) as [[m l]|] eqn:Em; inv.
    - destruct (cast_imag_free _ _ _ _ _ _ Em Hr) as [Fm Fl]. apply cast_bin in Em. destruct Em as (Em & _).
      destruct (as_bin (rcast pAdd y0)) as [[fl cl]|] eqn:El; inv.
      destruct (as_bin (rcast pAdd y1)) as [[fr cr]|] eqn:Er; inv.
      apply andb_prop in Hr2. destruct Hr2 as [C1 C2].
      pose proof (AD_drop _ _ _ _ _ _ El C1 Hr0) as A1. pose proof (AD_drop _ _ _ _ _ _ Er C2 Hr1) as A2.
      eapply AD_post; [|exact H]. apply AD_plus_C. eapply AD_pre; [exact Em|]. now apply AD_sub_node.
    - now apply HI.
  Qed.

  Lemma AD_div a b r : runs (int_div S I a b (EVar x)) (Some r) -> AD (EDiv a b) r.
  Proof.
    unfold int_div. intros H. inv.
    destruct (as_bin (rcast (PBin OMul PAny PReal) y)) as [[e c]|] eqn:E; inv.
    apply cast_bin in E. destruct E as (E & _).
    eapply AD_pre; [exact Hr|]. eapply AD_pre; [exact E|]. eapply AD_post; eauto.
  Qed.

  Lemma fits_real (a : expr) : fits PReal a -> exists c, a = EReal c.
  Proof. inversion 1. eauto. Qed.
  Lemma fits_var (a : expr) : fits PVar a -> exists c, a = EVar c.
  Proof. inversion 1. eauto. Qed.
  Lemma fits_euler (a : expr) : fits PEuler a -> a = EEuler.
  Proof. now inversion 1. Qed.

  Lemma AD_scale c e f : imag_free e = true -> AD e f -> AD (EMul (EReal c) e) (EMul (EReal c) f).
  Proof.
    intros Fe He rho v Hn Hv. destruct (bin_parts OMul _ _ _ ltac:(discriminate) Hn) as [_ Ne].
    destruct Hv as (p & q & Hp & Hq & E). simpl in Hp. subst p.
    destruct (imag_free_real toR _ _ _ Fe Hq) as [q' ->]. rewrite <- RtoC_mult in E. apply RtoC_inj in E. subst v.
    pose proof (He _ _ Ne Hq) as K. destruct (dv_inv _ _ _ _ _ K) as (F & d & HF & _).
    pose proof (near_here _ _ _ _ _ HF) as HF'.
    eapply dv_eq; [eapply dv_mul; [reflexivity|exact HF'|apply dv_lit|exact K]|]. f_equal. ring.
  Qed.

  (** *** Integration by parts *)
  Lemma split_sound e c e' : runs (split_coef S e) (c, e') ->
    refines e (EMul c e') /\ exists k, c = EReal k.
  Proof.
    unfold split_coef. destruct (as_bin (rcast pMulRE e)) as [[c0 e0]|] eqn:E; intros H; inv.
    - apply cast_bin in E. destruct E as (E & _ & Fc & _). destruct (fits_real _ Fc) as [k ->]. injection H as <- <-.
      split; [|eauto]. intros rho v Hv. apply E in Hv. destruct Hv as (p & q & Hp & Hq & ->).
      exists p, q. repeat split; auto.
    - injection H as <- <-. split; [|unfold real; eauto]. intros rho v Hv. exists (RtoC 1), v. split; [apply (ev_real toR HE)|]. split; [exact Hv|]. ring.
  Qed.

  Lemma upd_upd rho t s y : upd (upd rho x t) x s y = upd rho x s y.
  Proof. unfold upd. destruct (String.eqb y x); auto. Qed.

  Lemma near_deriv u rho : smooth u = true -> safe_powers u = true -> near u rho ->
    near (EDeriv u (EVar x)) rho.
  Proof.
    intros Hs Hp Hn. pose proof (locally_locally _ _ Hn) as H. unfold DiffSound.near. generalize H. apply filter_imp.
    intros t Ht.
    assert (N1 : near u (upd rho x t)).
    { unfold DiffSound.near. rewrite upd_same. generalize Ht. apply filter_imp. intros s [v Hv]. exists v.
      eapply ev_ext; [|exact Hv]. intros y. symmetry. apply upd_upd. }
    destruct (near_val _ _ _ _ N1) as [w Hw].
    destruct (near_dv toR x u _ Hs (safe_regular toR HE _ _ _ Hp Hw Hs) N1) as [d Hd]. eexists. exact Hd.
  Qed.

  Lemma lipet_swap (a b u w : expr) : lipet a b = (u, w) -> (u = a /\ w = b) \/ (u = b /\ w = a).
  Proof.
    unfold lipet. intros H.
    destruct (negb (is_type (TBin OLog) a) && is_type (TBin OLog) b) eqn:E1; cbn [fst snd] in H;
    match type of H with (let (_, _) := if ?c then _ else _ in _) = _ => destruct c eqn:E2 end;
    repeat match type of H with context [match ?m with Some _ => _ | None => _ end] => destruct m end;
    injection H as <- <-; auto.
  Qed.


  Lemma parts_rule u w vv du kv v1 kd du1 k part ip :
    smooth u = true -> safe_powers u = true -> imag_free w = true -> imag_free part = true ->
    AD w vv -> dsound toR x u du ->
    refines vv (EMul (EReal kv) v1) -> refines du (EMul (EReal kd) du1) ->
    refines (EMul (EReal kv) (EReal kd)) k -> refines (EMul v1 du1) part -> AD part ip ->
    AD (EMul u w) (EAdd (ESub (EMul u vv) (EMul k ip)) C_).
  Proof.
    intros Su Pu Fw Fp Aw Du Rv Rd Rk Rp Ap rho v Hn Hv.
    destruct (bin_parts OMul _ _ _ ltac:(discriminate) Hn) as [Nu Nw].
    destruct Hv as (p & q & Hp & Hq & E).
    destruct (smooth_real toR _ _ _ Su Hp) as [p' ->]. destruct (imag_free_real toR _ _ _ Fw Hq) as [q' ->].
    rewrite <- RtoC_mult in E. apply RtoC_inj in E. subst v. rename p' into p. rename q' into q.
    pose proof (Aw _ _ Nw Hq) as Dvv.
    destruct (dv_inv _ _ _ _ _ Dvv) as (F & d & HF & _). pose proof (near_here _ _ _ _ _ HF) as Vvv.
    destruct (near_dv toR x u rho Su (safe_regular toR HE _ _ _ Pu Hp Su) Nu) as [du0 Ddu].
    pose proof (Du _ _ (safe_regular toR HE _ _ _ Pu Hp Su) Ddu) as Vdu.
    assert (Ndu : near du rho).
    { pose proof (locally_locally _ _ Nu) as HL. unfold DiffSound.near. generalize HL. apply filter_imp. intros t Ht.
      assert (N1 : near u (upd rho x t)).
      { unfold DiffSound.near. rewrite upd_same. generalize Ht. apply filter_imp. intros s [v Hv]. exists v.
        eapply ev_ext; [|exact Hv]. intros y. symmetry. apply upd_upd. }
      destruct (near_val _ _ _ _ N1) as [z Hz]. pose proof (safe_regular toR HE _ _ _ Pu Hz Su) as Rz.
      destruct (near_dv toR x u _ Su Rz N1) as [d' Hd']. exists (RtoC d'). now apply Du. }
    assert (Np : near part rho).
    { eapply near_refines; [exact Rp|]. unfold DiffSound.near in *. generalize (filter_and _ _ HF Ndu). apply filter_imp.
      intros t [H1 [z H2]]. apply Rv in H1. apply Rd in H2.
      destruct H1 as (c1 & z1 & _ & Z1 & _). destruct H2 as (c2 & z2 & _ & Z2 & _).
      exists (Cmult z1 z2). exists z1, z2. auto. }
    pose proof (Rv _ _ Vvv) as (c1 & z1 & C1 & Z1 & E1). pose proof (Rd _ _ Vdu) as (c2 & z2 & C2 & Z2 & E2).
    simpl in C1, C2. subst c1 c2.
    assert (Vp : ev part rho (Cmult z1 z2)) by (apply Rp; exists z1, z2; auto).
    destruct (imag_free_real toR _ _ _ Fp Vp) as [pp Epp]. rewrite Epp in Vp.
    pose proof (Ap _ _ Np Vp) as Dip. destruct (dv_inv _ _ _ _ _ Dip) as (G & d2 & HG & _). pose proof (near_here _ _ _ _ _ HG) as Vip.
    assert (Vk : forall rho', ev k rho' (RtoC (toR kv * toR kd))).
    { intros rho'. apply Rk. exists (RtoC (toR kv)), (RtoC (toR kd)). rewrite RtoC_mult. repeat split. }
    assert (K : toR kv * toR kd * pp = F (rho x) * du0).
    { apply RtoC_inj. rewrite !RtoC_mult, E1, E2, <- Epp. ring. }
    eapply dv_eq.
    - apply dv_add; [|apply dv_C]. apply dv_sub.
      + eapply dv_mul; [exact Hp|exact Vvv|exact Ddu|exact Dvv].
      + eapply dv_mul; [apply Vk|exact Vip| |exact Dip]. apply (dv_const _ _ _ _ (toR kv * toR kd)). intros t. apply Vk.
    - f_equal. rewrite K. ring.
  Qed.

  Lemma AD_parts a b r : runs (int_parts S D I a b (EVar x)) (Some r) -> AD (EMul a b) r.
  Proof.
    unfold int_parts. destruct (lipet a b) as [u dv'] eqn:L. intros H. inv.
    destruct y0 as [vi|]; inv. destruct (as_bin (rcast (PBin OAdd PAny PVar) vi)) as [[vv c]|] eqn:Ev; inv.
    destruct y2 as [vc v1], y3 as [dc du1]. inv.
    destruct (split_sound _ _ _ Hr3) as [Rv [kv ->]]. destruct (split_sound _ _ _ Hr4) as [Rd [kd ->]].
    apply andb_prop in Hr. destruct Hr as [Hr Fw]. apply andb_prop in Hr. destruct Hr as [Su Pu].
    apply HI in Hr0. apply HD in Hr1; [|exact Su]. pose proof (AD_drop _ _ _ _ _ _ Ev Hr2 Hr0) as Aw.
    destruct y4; inv.
    set (ip := match as_bin (rcast pAdd y5) with Some (f, _) => f | None => y5 end) in *.
    assert (Ai : AD y3 ip).
    { subst ip. destruct (as_bin (rcast pAdd y5)) as [[f c']|] eqn:Ei; [|assumption].
      apply negb_false_iff in Hr9. eapply AD_drop; eauto. }
    eapply AD_post; [|exact H].
    eapply AD_pre; [|exact (parts_rule u dv' vv y1 kv v1 kd du1 y2 y3 ip Su Pu Fw Hr Aw Hr1 Rv Rd Hr5 Hr6 Ai)].
    destruct (lipet_swap _ _ _ _ L) as [[-> ->]|[-> ->]]; [now intros rho v Hv|].
    intros rho v (p & q & Hp & Hq & ->). exists q, p. repeat split; auto. ring.
  Qed.

  Lemma AD_mul a b r : runs (int_mul S D I a b (EVar x)) (Some r) -> AD (EMul a b) r.
  Proof.
    unfold int_mul. intros H. inv.
    destruct (as_bin (rcast pMulRE d)) as [[c e]|] eqn:Em; [|now apply AD_parts].
    inv. destruct (cast_imag_free _ _ _ _ _ _ Em Hr) as [_ Fe].
    apply cast_bin in Em. destruct Em as (Em & _ & Fc & _). destruct (fits_real _ Fc) as [k ->].
    destruct (as_bin (rcast (PBin OAdd PAny PVar) y0)) as [[f k']|] eqn:El; inv.
    pose proof (AD_drop _ _ _ _ _ _ El Hr1 Hr0) as A1.
    eapply AD_pre; [exact T|]. eapply AD_pre; [exact Em|]. eapply AD_post; [|exact H].
    apply AD_plus_C. now apply AD_scale.
  Qed.

  (** *** Powers *)
  Lemma AD_pow n : toR n <> -1 ->
    AD (EExp (EVar x) (EReal n)) (EDiv (EExp (EVar x) (EReal (n_add n n1))) (EReal (n_add n n1))).
  Proof.
    intros Hn rho v Hv0 Hv. destruct Hv as (p & q & Hp & Hq & E). simpl in Hp, Hq. subst p q.
    assert (Es : toR (n_add n n1) = toR n + 1).
    { rewrite (ex_add N toR HE). f_equal. apply (toR_Z toR HE). }
    assert (Hs : toR n + 1 <> 0) by lra.
    assert (Int : forall z, toR n = IZR z -> (rho x <> 0 \/ (0 < z)%Z) -> v = powerRZ (rho x) z ->
      dv (EDiv (EExp (EVar x) (EReal (n_add n n1))) (EReal (n_add n n1))) rho (RtoC v)).
    { intros z Hz Hz' ->.
      assert (Ez : toR (n_add n n1) = IZR (z + 1)) by (rewrite Es, Hz, plus_IZR; reflexivity).
      assert (Hz1 : (rho x <> 0 \/ (0 < z + 1)%Z)) by (destruct Hz'; [auto|right; lia]).
      assert (D1 : dv (EExp (EVar x) (EReal (n_add n n1))) rho (RtoC (IZR (z + 1) * 1 * powerRZ (rho x) (z + 1 - 1)))).
      { apply (dv_powz _ _ _ _ (z + 1)); auto; [reflexivity|apply dv_self]. }
      destruct (dv_inv _ _ _ _ _ D1) as (F & d & HF & _). pose proof (near_here _ _ _ _ _ HF) as VF.
      eapply dv_eq; [eapply dv_div; [exact VF|reflexivity| |exact D1|apply dv_lit]|].
      - rewrite Es. exact Hs.
      - f_equal. replace (z + 1 - 1)%Z with z by lia. rewrite <- Ez, Es. field. exact Hs. }
    apply cpow_inv in E. destruct E as [(z & E & Hz & Ev)|[(y & s & E1 & E2 & E3 & Ev)|(s & E1 & E2 & E3 & Ev)]].
    - apply RtoC_inj in E. apply (Int z E).
      + destruct Hz as [Hz|Hz]; [left; intros K; apply Hz; now rewrite K|auto].
      + apply RtoC_inj. rewrite Ev. destruct (Req_dec (rho x) 0) as [K|K]; [|now apply cpowz_R].
        destruct Hz as [Hz|Hz]; [rewrite K in Hz; now destruct Hz|]. rewrite K, cpowz_0 by assumption.
        f_equal. destruct z; try lia. simpl. destruct (Pos2Nat.is_succ p) as [m ->]. simpl. ring.
    - apply RtoC_inj in E1, E3, Ev. subst y s v.
      assert (D1 : dv (EExp (EVar x) (EReal (n_add n n1))) rho
        (RtoC (Rpower (rho x) (toR n + 1) * ((toR n + 1) * 1 / rho x + 0 * ln (rho x))))).
      { apply dv_exp; auto; [reflexivity|simpl; now rewrite Es|apply dv_self|apply dv_lit]. }
      destruct (dv_inv _ _ _ _ _ D1) as (F & d & HF & _). pose proof (near_here _ _ _ _ _ HF) as VF.
      eapply dv_eq; [eapply dv_div; [exact VF|reflexivity| |exact D1|apply dv_lit]|].
      + rewrite Es. exact Hs.
      + f_equal. rewrite Es, Rpower_plus, Rpower_1 by assumption. field. lra.
    - apply RtoC_inj in E1, E2, Ev. subst s v.
      destruct Hv0 as [eps He].
      assert (B : ball (rho x) eps (rho x - eps / 2)).
      { change (Rabs ((rho x - eps / 2) - rho x) < eps). pose proof (cond_pos eps).
        replace (rho x - eps / 2 - rho x) with (- (eps / 2)) by ring. rewrite Rabs_Ropp, Rabs_right; lra. }
      destruct (He _ B) as [w (p & q & Hp & Hq & Hw)]. simpl in Hp, Hq. rewrite upd_same in Hp. subst p q.
      pose proof (cond_pos eps) as Heps.
      apply cpow_inv in Hw. destruct Hw as [(z & E & Hz & _)|[(y & s & F1 & F2 & _)|(s & F1 & _)]].
      + apply RtoC_inj in E. assert (Hz0 : (0 < z)%Z) by (apply lt_IZR; rewrite <- E; exact E3).
        apply (Int z E); [auto|]. rewrite E1. destruct z; try lia. simpl. destruct (Pos2Nat.is_succ p) as [m ->]. simpl. ring.
      + apply RtoC_inj in F1. lra.
      + apply RtoC_inj in F1. lra.
  Qed.

  Lemma AD_exp a b r : runs (int_exp S a b x) (Some r) -> AD (EExp a b) r.
  Proof.
    unfold int_exp. intros H. inv. eapply AD_pre; [exact T|]. destruct y as [e|].
    - inv. unfold int_exp_pow in Hr.
      destruct (rcast (PBin OExp PVar PReal) d) as [s|] eqn:E; inv.
      destruct (rcast_sound _ _ _ E) as [F Ro].
      inversion F as [| | | | | | | |o' p' q' a' b' Fa Fb|]; subst.
      destruct (fits_var _ Fa) as [z ->]. destruct (fits_real _ Fb) as [n ->].
      destruct (String.eqb x z) eqn:Ez; inv. apply String.eqb_eq in Ez. subst z.
      eapply AD_pre; [intros rho v Hv; apply (proj1 (reorders_ev toR _ _ Ro rho v)); exact Hv|].
      eapply AD_post; [|eassumption]. apply AD_plus_C. apply AD_pow.
      intros K. rewrite (proj2 (ex_eqb N toR HE _ _)) in Hr0; [discriminate|]. rewrite K. symmetry. apply (toR_Z toR HE).
    - inv. destruct y as [e|]; inv. unfold int_exp_euler in Hr0.
      destruct (rcast (PBin OExp PEuler PVar) d) as [s|] eqn:E; inv.
      destruct (rcast_sound _ _ _ E) as [F Ro].
      inversion F as [| | | | | | | |o' p' q' a' b' Fa Fb|]; subst. apply fits_euler in Fa. subst a'.
      destruct (fits_var _ Fb) as [z ->]. inv.
      assert (Ez : x = z).
      { cbn [const_for] in Hr1. apply negb_false_iff, String.eqb_eq in Hr1. exact Hr1. }
      subst z.
      eapply AD_pre; [intros rho v Hv; apply (proj1 (reorders_ev toR _ _ Ro rho v)); exact Hv|].
      eapply AD_post; [|eassumption]. apply AD_plus_C.
      intros rho v Hn (p & q & Hp & Hq & Hv). simpl in Hp, Hq. subst p q.
      apply (cpow_real_iff _ _ _ (exp_pos 1)) in Hv. apply RtoC_inj in Hv. subst v.
      eapply dv_eq; [eapply (dv_exp _ _ _ _ _ (exp 1) (rho x)); [reflexivity|reflexivity|apply exp_pos| |apply dv_self]|].
      + now apply (dv_const _ _ _ _ (exp 1)).
      + f_equal. rewrite ln_exp. field. pose proof (exp_pos 1). lra.
  Qed.

  (** *** Logarithms *)
  Lemma ev_ln_inv a rho v : ev (ELog EEuler a) rho (RtoC v) -> exists p, ev a rho (RtoC p) /\ 0 < p /\ v = ln p.
  Proof.
    intros (e & p & He & Hp & (y & w & Hy & Hw & Y1 & Y2 & Y3 & E)). simpl in He. subst e p.
    apply RtoC_inj in Hy, E. exists w. repeat split; auto. rewrite E, <- Hy, ln_exp. field.
  Qed.

  Lemma AD_ln a r : runs (int_ln S a (EVar x)) (Some r) -> AD (ELog EEuler a) r.
  Proof.
    unfold int_ln. intros H. inv. destruct y.
    - inv. destruct (is_type TVar a); inv. pose proof (fun rho v => m_eq_true toR HE _ _ rho v Hr) as K.
      intros rho v Hn Hv. destruct (ev_ln_inv _ _ _ Hv) as (p & Hp & Hp0 & ->).
      assert (Ex : p = rho x).
      { apply K in Hp. simpl in Hp. now apply RtoC_inj in Hp. }
      assert (Da : dv a rho (RtoC 1)).
      { eapply dv_refines; [|apply dv_self]. intros rho' v' Hv'. now apply K. }
      eapply dv_refines; [exact H|]. eapply dv_eq.
      + apply dv_add; [|apply dv_C].
        eapply dv_mul; [reflexivity| |apply dv_self|apply dv_sub; [eapply dv_ln; eauto|apply dv_lit]].
        eapply (ev_eq toR); [apply ev_sub; [exact Hv|apply (ev_real toR HE)]|]. symmetry. apply RtoC_minus.
      + f_equal. rewrite <- Ex. field. lra.
    - inv. cbn [is_var andb] in Hr0. apply andb_prop in Hr0. destruct Hr0 as [Sa Pa].
      assert (Base : forall rho v, near (ELog EEuler a) rho -> ev (ELog EEuler a) rho (RtoC v) ->
        exists p da, ev a rho (RtoC p) /\ 0 < p /\ v = ln p /\ dv a rho (RtoC da) /\ ev d rho (RtoC da)).
      { intros rho v Hn Hv. destruct (ev_ln_inv _ _ _ Hv) as (p & Hp & Hp0 & ->).
        destruct (bin_parts OLog _ _ _ ltac:(discriminate) Hn) as [_ Na].
        destruct (near_dv toR x a rho Sa (safe_regular toR HE _ _ _ Pa Hp Sa) Na) as [da Da].
        exists p, da. repeat split; auto. }
      destruct y0; inv.
      + pose proof (fun rho v => m_eq_true toR HE _ _ rho v Hr1) as K. eapply AD_post; [|exact H]. apply AD_plus_C.
        intros rho v Hn Hv. destruct (Base _ _ Hn Hv) as (p & da & Hp & Hp0 & -> & Da & Vd).
        apply K in Vd. pose proof (ev_fun toR _ _ _ _ Vd (ev_real toR HE 0 rho)) as E0. apply RtoC_inj in E0. subst da.
        eapply dv_eq; [eapply dv_mul; [reflexivity|exact Hv|apply dv_self|eapply dv_ln; eauto]|].
        f_equal. field. lra.
      + destruct (is_type TReal d) eqn:Td; inv. destruct d as [c| | | | | | | |]; try discriminate.
        eapply AD_post; [|exact H]. apply AD_plus_C.
        intros rho v Hn Hv. destruct (Base _ _ Hn Hv) as (p & da & Hp & Hp0 & -> & Da & Vd).
        simpl in Vd. apply RtoC_inj in Vd. subst da.
        assert (Hc : toR c <> 0).
        { intros K. change (m_eq (EReal c) (real 0)) with (emit (n_eqb c n0 && negb (eq_strict (EReal c) (real 0))) LooseEquals ;;; ret (n_eqb c n0)) in Hr1.
          rewrite (proj2 (ex_eqb N toR HE c n0)) in Hr1; [inv; discriminate|]. rewrite K. symmetry. apply (toR_Z toR HE). }
        assert (D1 : dv (EMul a (ESub (ELog EEuler a) (real 1))) rho (RtoC (toR c * (ln p - 1) + p * (toR c / p - 0)))).
        { eapply dv_mul; [exact Hp| |exact Da|apply dv_sub; [eapply dv_ln; eauto|apply dv_lit]].
          eapply (ev_eq toR); [apply ev_sub; [exact Hv|apply (ev_real toR HE)]|]. symmetry. apply RtoC_minus. }
        destruct (dv_inv _ _ _ _ _ D1) as (F & d & HF & _). pose proof (near_here _ _ _ _ _ HF) as VF.
        eapply dv_eq; [eapply dv_div; [exact VF|reflexivity|exact Hc|exact D1|apply dv_lit]|].
        f_equal. field. split; [lra|exact Hc].
  Qed.

  Lemma AD_logb b a r : runs (int_logb S b a (EVar x)) (Some r) -> AD (ELog b a) r.
  Proof.
    unfold int_logb. intros H. inv. destruct y.
    - inv. pose proof (fun rho v => m_eq_true toR HE _ _ rho v Hr) as K.
      intros rho v Hn (q & p & Hq & Hp & (q' & p' & -> & -> & Q1 & Q2 & P1 & E)). apply RtoC_inj in E. subst v.
      assert (L : ln p' = ln q').
      { assert (Va : ev (ELog EEuler a) rho (RtoC (ln p'))) by (apply (ev_ln toR); auto).
        apply K in Va. destruct (ev_ln_inv _ _ _ Va) as (s & Hs & _ & ->).
        pose proof (RtoC_inj _ _ (ev_fun toR _ _ _ _ Hs Hq)). now subst. }
      eapply dv_eq; [apply dv_add; [apply dv_self|apply dv_C]|]. f_equal. rewrite L. field. now apply ln_neq_0'.
    - inv. cbn [is_var andb] in Hr1. apply andb_prop in Hr1. destruct Hr1 as [Sb Pb]. destruct y2; inv.
      pose proof (fun rho v => m_eq_true toR HE _ _ rho v Hr3) as K.
      assert (Main : forall f, AD (ELog EEuler a) f -> AD (ELog b a) (EDiv f (ELog EEuler b))).
      { intros f Af rho v Hn (q & p & Hq & Hp & (q' & p' & -> & -> & Q1 & Q2 & P1 & E)). apply RtoC_inj in E. subst v.
        destruct (bin_parts OLog _ _ _ ltac:(discriminate) Hn) as [Nb _].
        destruct (near_dv toR x b rho Sb (safe_regular toR HE _ _ _ Pb Hq Sb) Nb) as [db Db].
        assert (Dl : dv (ELog EEuler b) rho (RtoC (db / q'))) by (eapply dv_ln; eauto).
        assert (E0 : db / q' = 0).
        { apply Hr2 in Dl. apply K in Dl. apply RtoC_inj. exact (ev_fun toR _ _ _ _ Dl (ev_real toR HE 0 rho)). }
        rewrite E0 in Dl.
        assert (Va : ev (ELog EEuler a) rho (RtoC (ln p'))) by (apply (ev_ln toR); auto).
        assert (Na : near (ELog EEuler a) rho).
        { unfold DiffSound.near in *. generalize Hn. apply filter_imp.
          intros t [w (q2 & p2 & _ & Hp2 & (q3 & p3 & -> & -> & _ & _ & P3 & _))].
          exists (RtoC (ln p3)). apply (ev_ln toR); auto. }
        pose proof (Af _ _ Na Va) as Df. destruct (dv_inv _ _ _ _ _ Df) as (F & d & HF & _).
        pose proof (near_here _ _ _ _ _ HF) as VF. pose proof (ln_neq_0' _ Q1 Q2) as Hl.
        eapply dv_eq; [eapply dv_div; [exact VF|apply (ev_ln toR); eauto|exact Hl|exact Df|exact Dl]|].
        f_equal. field. exact Hl. }
      destruct (as_bin (rcast pAdd y2)) as [[f k]|] eqn:Ea; inv.
      + eapply AD_post; [|exact H]. apply AD_plus_C. apply Main. eapply AD_drop; eauto.
      + eapply AD_post; [|exact H]. now apply Main.
  Qed.

  Lemma AD_log b a r : runs (int_log S b a (EVar x)) (Some r) -> AD (ELog b a) r.
  Proof.
    unfold int_log. intros H. inv. destruct y; [|now apply AD_logb].
    pose proof (fun rho v => m_eq_true toR HE _ _ rho v Hr) as K. apply AD_ln in H.
    eapply AD_pre; [|exact H]. intros rho v (q & p & Hq & Hp & E). exists q, p. repeat split; auto. now apply K.
  Qed.

  Theorem AD_step e r : runs (integ_step S D I e (EVar x)) (Some r) -> AD e r.
  Proof.
    unfold integ_step. intros H. destruct e as [c| |y| | | |r' c d|o a b|o a]; inv; auto using AD_real, AD_var, AD_euler.
    - destruct o; cbn [is_var] in H; inv; auto using AD_add, AD_sub, AD_mul, AD_div, AD_exp, AD_log.
    - destruct o; inv.
  Qed.
End Int.

Section Knot.
  Context {num : Type} {N : NumOps num}.
  Variable toR : num -> R.
  Hypothesis HE : Exact N toR.
  Notation expr := (expr num).

  Lemma simp_int n x a r : x <> "C"%string ->
    (forall e r, runs (integ n e (EVar x)) (Some r) -> AD toR x e r) ->
    runs (simp (S n) false (EInt a (EVar x))) r -> AD toR x a r.
  Proof.
    intros Hx HI H.
    change (runs (visit_int (simp n false) (integ n) a (EVar x)) r) in H.
    unfold visit_int, operands in H. minv.
    apply (proj1 (runs_try _ _)) in Hr. apply (proj1 (runs_try _ _)) in Hr0.
    destruct Hr as [(a' & Ha & ->)|(s & _ & ->)]; minv.
    destruct Hr0 as [(b' & Hb & ->)|(s & _ & ->)]; minv.
    assert (b' = EVar x) by (destruct n; [discriminate|]; now apply (proj1 (runs_ret _ _)) in Hb). subst b'.
    destruct y as [e|]; minv.
    destruct (knot_sound toR HE n) as [Ks _]. apply Ks in Ha.
    eapply AD_pre; [exact Ha|]. now apply HI.
  Qed.

  Theorem integ_sound n : forall x, x <> "C"%string ->
    (forall e r, runs (integ n e (EVar x)) (Some r) -> AD toR x e r) /\
    (forall a r, runs (simp n false (EInt a (EVar x))) r -> AD toR x a r).
  Proof.
    induction n as [|n IH]; intros x Hx.
    - split; intros e r H; discriminate.
    - destruct (IH x Hx) as [H1 H2]. destruct (knot_sound toR HE n) as [Ks Kd]. split.
      + intros e r H.
        change (runs (integ_step (simp n false) (differentiate_with (diff n false)) (integ n) e (EVar x)) (Some r)) in H.
        revert H. apply AD_step; auto.
        * intros e' r'. apply Ks.
        * intros e' d Hs H. eapply differentiate_with_sound; eauto.
      + intros a r. now apply simp_int.
  Qed.
End Knot.
