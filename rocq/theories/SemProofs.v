(** Values of expressions: uniqueness, reordering, sums and products. *)
From Coq Require Import String Bool ZArith Reals Lra Lia List Permutation.
From Coquelicot Require Import Coquelicot.
From Verif Require Import Base Num Expr Ghost Spec TreeProofs PowProofs.
Import ListNotations.
Open Scope R_scope.

Section Sem.
  Context {num : Type} {N : NumOps num}.
  Variable toR : num -> R.
  Notation expr := (expr num).
  Notation ev := (ev toR).

  Lemma upd_same rho x t : upd rho x t x = t.
  Proof. unfold upd. now rewrite String.eqb_refl. Qed.
  Lemma upd_other rho x y t : y <> x -> upd rho x t y = rho y.
  Proof. unfold upd. intros H. apply String.eqb_neq in H. now rewrite H. Qed.
  Lemma upd_id rho x y : upd rho x (rho x) y = rho y.
  Proof.
    destruct (String.string_dec y x) as [->|H]; [apply upd_same|now apply upd_other].
  Qed.

  (** Only the values of the variables matter. *)
  Lemma ev_ext : forall e rho rho' v, (forall x, rho x = rho' x) -> ev e rho v -> ev e rho' v.
  Proof.
    induction e; intros rho rho' v Hr; simpl; auto.
    - now rewrite Hr.
    - destruct o;
        try (intros (p & q & H1 & H2 & H3); exists p, q; split; [eauto|split; [eauto|exact H3]]; fail); auto.
      destruct e2; auto. intros (f & d & H1 & H2 & H3). exists f, d.
      rewrite <- Hr. split; [|auto].
      revert H1. apply filter_imp. intros t Ht. eapply IHe1; [|exact Ht].
      intros y. unfold upd. now rewrite Hr.
    - destruct o; intros (w & H1 & H2); exists w; split; eauto.
  Qed.

  Lemma locally_ev_fun (P : R -> C -> Prop) f g x :
    (forall t v w, P t v -> P t w -> v = w) ->
    locally x (fun t => P t (RtoC (f t))) -> locally x (fun t => P t (RtoC (g t))) ->
    locally x (fun t => f t = g t).
  Proof.
    intros HP H1 H2. generalize (filter_and _ _ H1 H2). apply filter_imp.
    intros t [A B]. apply RtoC_inj. eauto.
  Qed.

  Lemma ev_fun : forall e rho v w, ev e rho v -> ev e rho w -> v = w.
  Proof.
    induction e; intros rho v w; simpl; try congruence; try tauto.
    - destruct o.
      1,2,3: intros (p & q & H1 & H2 & ->) (p' & q' & H1' & H2' & ->); f_equal; eauto.
      + intros (p & q & H1 & H2 & _ & ->) (p' & q' & H1' & H2' & _ & ->); f_equal; eauto.
      + intros (p & q & H1 & H2 & H3) (p' & q' & H1' & H2' & H3').
        assert (p' = p) by eauto. assert (q' = q) by eauto. subst. eapply cpow_fun; eauto.
      + intros (p & q & H1 & H2 & H3) (p' & q' & H1' & H2' & H3').
        assert (p' = p) by eauto. assert (q' = q) by eauto. subst. eapply clog_fun; eauto.
      + destruct e2; try tauto.
        intros (f & d & H1 & H2 & ->) (f' & d' & H1' & H2' & ->). f_equal.
        assert (L : locally (rho x) (fun t => f t = f' t)).
        { eapply (locally_ev_fun (fun t v => ev e1 (upd rho x t) v)); eauto. }
        apply (is_derive_ext_loc _ _ _ _ L) in H2.
        rewrite <- (is_derive_unique _ _ _ H2). now apply is_derive_unique.
      + tauto.
    - destruct o.
      + intros (p & H1 & ->) (p' & H1' & ->). f_equal. eauto.
      + intros (p & H1 & ->) (p' & H1' & ->).
        assert (E : RtoC p = RtoC p') by eauto. apply RtoC_inj in E. now subst.
      + intros (p & H1 & ->) (p' & H1' & ->). do 2 f_equal. eauto.
  Qed.

  (** Reordering does not change the value. *)
  Lemma reorders_ev : forall e r, reorders e r ->
    forall rho v, ev e rho v <-> ev r rho v.
  Proof.
    induction 1 as [e|o a b a' b' Ha IHa Hb IHb|o a b a' b' Ho Ha IHa Hb IHb|o a a' Ha IHa]; intros rho v.
    - tauto.
    - destruct o; simpl;
        try (split; intros (p & q & H1 & H2 & H3); exists p, q;
             (split; [now apply IHa|split; [now apply IHb|exact H3]]); fail); try tauto.
      inversion Hb; subst; try tauto. destruct b'; try tauto.
      split; intros (f & d & H1 & H2 & H3); exists f, d; (split; [|auto]);
        revert H1; apply filter_imp; intros t; apply IHa.
    - destruct Ho as [->|[->| ->]]; simpl; try tauto.
      + split; intros (p & q & H1 & H2 & ->); exists q, p;
          (split; [now (apply IHa || apply IHb)|split; [now (apply IHa || apply IHb)|apply Cplus_comm]]).
      + split; intros (p & q & H1 & H2 & ->); exists q, p;
          (split; [now (apply IHa || apply IHb)|split; [now (apply IHa || apply IHb)|apply Cmult_comm]]).
    - destruct o; simpl; split; intros (p & H1 & H2); exists p; (split; [now apply IHa|auto]).
  Qed.

  Lemma rcast_ev p e r rho v : rcast p e = Some r -> (ev e rho v <-> ev r rho v).
  Proof. intros H. apply reorders_ev. now apply rcast_sound in H. Qed.

  (** ** Sums and products of operand lists *)

  Definition cop (o : binop) : C -> C -> C := match o with OMul => Cmult | _ => Cplus end.
  Definition cunit (o : binop) : C := match o with OMul => RtoC 1 | _ => RtoC 0 end.
  Definition csum (o : binop) (l : list C) : C := fold_right (cop o) (cunit o) l.
  Definition evl (l : list expr) (rho : env) (vs : list C) : Prop :=
    Forall2 (fun e v => ev e rho v) l vs.
  (** [evs o l rho v]: all of [l] have values, with sum/product [v]. *)
  Definition evs (o : binop) (l : list expr) (rho : env) (v : C) : Prop :=
    exists vs, evl l rho vs /\ v = csum o vs.
  Definition addmul (o : binop) : Prop := o = OAdd \/ o = OMul.

  Lemma cop_assoc o a b c : cop o a (cop o b c) = cop o (cop o a b) c.
  Proof. destruct o; simpl; apply Cplus_assoc || apply Cmult_assoc. Qed.
  Lemma cop_comm o a b : cop o a b = cop o b a.
  Proof. destruct o; simpl; apply Cplus_comm || apply Cmult_comm. Qed.
  Lemma cop_unit_l o a : cop o (cunit o) a = a.
  Proof. destruct o; simpl; apply Cplus_0_l || apply Cmult_1_l. Qed.
  Lemma cop_unit_r o a : cop o a (cunit o) = a.
  Proof. rewrite cop_comm. apply cop_unit_l. Qed.
  Lemma csum_app o l m : csum o (l ++ m) = cop o (csum o l) (csum o m).
  Proof.
    induction l as [|x l IH]; simpl; [now rewrite cop_unit_l|]. rewrite IH. apply cop_assoc.
  Qed.

  Lemma ev_node o a b rho v : addmul o ->
    (ev (EBin o a b) rho v <-> exists p q, ev a rho p /\ ev b rho q /\ v = cop o p q).
  Proof. intros [->| ->]; simpl; tauto. Qed.

  Lemma evs_nil o rho v : evs o [] rho v <-> v = cunit o.
  Proof.
    split.
    - intros (vs & H & ->). inversion H. reflexivity.
    - intros ->. exists []. split; [constructor|reflexivity].
  Qed.
  Lemma evs_cons o e l rho v : evs o (e :: l) rho v <->
    exists p q, ev e rho p /\ evs o l rho q /\ v = cop o p q.
  Proof.
    split.
    - intros (vs & H & ->). inversion H; subst. exists y, (csum o l'). repeat split; auto. now exists l'.
    - intros (p & q & H1 & (vs & H2 & ->) & ->). exists (p :: vs). split; [now constructor|reflexivity].
  Qed.
  Lemma evs_app o l m rho v : evs o (l ++ m) rho v <->
    exists p q, evs o l rho p /\ evs o m rho q /\ v = cop o p q.
  Proof.
    revert v. induction l as [|e l IH]; intros v; simpl.
    - split.
      + intros H. exists (cunit o), v. rewrite evs_nil. repeat split; auto. now rewrite cop_unit_l.
      + intros (p & q & H1 & H2 & ->). apply evs_nil in H1. subst. now rewrite cop_unit_l.
    - rewrite evs_cons. split.
      + intros (p & q & H1 & H2 & ->). apply IH in H2. destruct H2 as (p' & q' & H2 & H3 & ->).
        exists (cop o p p'), q'. split; [|split; auto].
        * apply evs_cons. eauto.
        * apply cop_assoc.
      + intros (p & q & H1 & H2 & ->). apply evs_cons in H1. destruct H1 as (p' & q' & H1 & H3 & ->).
        exists p', (cop o q' q). split; [auto|split].
        * apply IH. eauto.
        * symmetry. apply cop_assoc.
  Qed.
  Lemma evs_one o e rho v : evs o [e] rho v <-> ev e rho v.
  Proof.
    rewrite evs_cons. split.
    - intros (p & q & H1 & H2 & ->). apply evs_nil in H2. subst. now rewrite cop_unit_r.
    - intros H. exists v, (cunit o). rewrite evs_nil, cop_unit_r. auto.
  Qed.
  Lemma evs_fun o l rho v w : evs o l rho v -> evs o l rho w -> v = w.
  Proof.
    revert v w. induction l as [|e l IH]; intros v w.
    - rewrite !evs_nil. congruence.
    - rewrite !evs_cons. intros (p & q & H1 & H2 & ->) (p' & q' & H1' & H2' & ->). f_equal; eauto using ev_fun.
  Qed.
  Lemma evs_perm o l m rho v : Permutation l m -> evs o l rho v -> evs o m rho v.
  Proof.
    intros P. revert v. induction P; intros v; auto.
    - rewrite !evs_cons. intros (p & q & H1 & H2 & ->). eauto 6.
    - rewrite !evs_cons. intros (p & q & H1 & H2 & ->). apply evs_cons in H2. destruct H2 as (p' & q' & H2 & H3 & ->).
      exists p', (cop o p q'). split; auto. split.
      + apply evs_cons. eauto.
      + rewrite !cop_assoc. f_equal. apply cop_comm.
  Qed.

  Lemma flat_ev o : addmul o -> forall e rho v, ev e rho v <-> evs o (flat o e) rho v.
  Proof.
    intros Ho. induction e; intros rho v; try (cbn [flat]; symmetry; apply evs_one).
    cbn [flat]. destruct (binop_eqb o o0) eqn:E; [|symmetry; apply evs_one].
    apply binop_eqb_eq in E; subst o0. rewrite ev_node by assumption. rewrite evs_app.
    split; intros (p & q & H1 & H2 & H3); exists p, q; (split; [now apply IHe1|split; [now apply IHe2|auto]]).
  Qed.

  Lemma flatten_ev o a b rho v : addmul o -> (ev (EBin o a b) rho v <-> evs o (flatten o a b) rho v).
  Proof.
    intros Ho. rewrite (flat_ev o Ho). cbn [flat]. rewrite binop_eqb_refl. reflexivity.
  Qed.

  Lemma flat_map_ev o : addmul o -> forall l rho v, evs o l rho v <-> evs o (flat_map (flat o) l) rho v.
  Proof.
    intros Ho. induction l as [|e l IH]; intros rho v; simpl; [tauto|].
    rewrite evs_cons, evs_app.
    split; intros (p & q & H1 & H2 & H3); exists p, q;
      (split; [now apply (flat_ev o Ho)|split; [now apply IH|auto]]).
  Qed.

  Lemma build_ev o l t rho v : addmul o -> build o l = Some t -> (ev t rho v <-> evs o l rho v).
  Proof.
    intros Ho H.
    assert (Hl : (2 <= length l)%nat).
    { destruct (Nat.lt_ge_cases (length l) 2) as [Hl|]; auto. rewrite build_short in H by assumption. discriminate. }
    destruct (build_spec o l Hl) as (a & b & E & F). rewrite E in H. injection H as <-.
    rewrite flatten_ev by assumption. rewrite F. symmetry. now apply flat_map_ev.
  Qed.

  (** ** Equality *)

  Hypothesis eqb_toR : forall a b, n_eqb a b = true -> toR a = toR b.

  Lemma same_ev : forall a b, same a b -> forall rho v, ev a rho v <-> ev b rho v.
  Proof.
    induction 1 as [x y H| | | | |r c d d' H|o a b a' b' Ha IHa Hb IHb|o a a' Ha IHa]; intros rho v; try tauto; simpl.
    - now rewrite (eqb_toR _ _ H).
    - destruct o;
        try (split; intros (p & q & H1 & H2 & H3); exists p, q;
             (split; [now apply IHa|split; [now apply IHb|exact H3]]); fail); try tauto.
      inversion Hb; subst; try tauto.
      split; intros (f & d & H1 & H2 & H3); exists f, d; (split; [|auto]);
        revert H1; apply filter_imp; intros t; apply IHa.
    - destruct o; split; intros (p & H1 & H2); exists p; (split; [now apply IHa|auto]).
  Qed.

  Lemma equals_ev_plain a b rho v : no_assoc a -> equals a b = Some true -> (ev a rho v <-> ev b rho v).
  Proof. intros Ha H. apply same_ev. now apply equals_same_true. Qed.

  (** The ghost equality is sound. *)
  Lemma remove_first_spec (f : expr -> bool) l l' : remove_first f l = Some l' ->
    exists y, f y = true /\ Permutation l (y :: l').
  Proof.
    revert l'. induction l as [|x l IH]; intros l' H; simpl in H; [discriminate|].
    destruct (f x) eqn:E.
    - injection H as <-. eauto.
    - destruct (remove_first f l) as [m|]; [|discriminate]. injection H as <-.
      destruct (IH m eq_refl) as (y & Hy & P). exists y. split; auto.
      rewrite P. apply perm_swap.
  Qed.

  Lemma seqm_ev : forall a,
    (forall b, fst (seqm a) b = true -> forall rho v, ev a rho v <-> ev b rho v) /\
    (forall o, addmul o -> forall l l', snd (seqm a) o l = Some l' ->
       forall rho v, evs o l rho v <-> exists p q, ev a rho p /\ evs o l' rho q /\ v = cop o p q).
  Proof.
    assert (Hrem : forall a (f : expr -> bool),
      (forall b, f b = true -> forall rho v, ev a rho v <-> ev b rho v) ->
      forall o l l', remove_first f l = Some l' ->
       forall rho v, evs o l rho v <-> exists p q, ev a rho p /\ evs o l' rho q /\ v = cop o p q).
    { intros a f Hf o l l' H rho v. destruct (remove_first_spec _ _ _ H) as (y & Hy & P).
      split.
      - intros He. apply (evs_perm _ _ _ _ _ P) in He. apply evs_cons in He.
        destruct He as (p & q & H1 & H2 & H3). exists p, q. split; [now apply (Hf y Hy)|auto].
      - intros (p & q & H1 & H2 & H3). apply (evs_perm _ _ _ _ _ (Permutation_sym P)). apply evs_cons.
        exists p, q. split; [now apply (Hf y Hy)|auto]. }
    assert (Hleaf : forall a, (forall o x y, a <> EBin o x y) -> (forall o x, a <> EUn o x) ->
      forall b, leaf_equals a b = Some true -> same a b).
    { intros a H1 H2 b H. destruct a; try (now destruct (H1 o a1 a2)); try (now destruct (H2 o a));
        simpl in H; destruct b; try discriminate; try constructor; injection H as H; auto.
      - apply String.eqb_eq in H. subst. constructor.
      - apply andb_prop in H. destruct H as [H H3].
        apply andb_prop in H. destruct H as [H H4].
        apply Nat.eqb_eq in H, H4. subst. now constructor. }
    induction a;
      try (match goal with |- context [seqm ?a] =>
        assert (Hs : forall b, fst (seqm a) b = true -> forall rho v, ev a rho v <-> ev b rho v);
        [intros b Hb; apply same_ev, Hleaf; try discriminate;
         change (fst (seqm a) b) with (match leaf_equals a b with Some true => true | _ => false end) in Hb;
         destruct (leaf_equals a b) as [[]|]; try discriminate; reflexivity
        |split; [exact Hs|]; intros o _ l l' H; exact (Hrem a _ Hs o l l' H)] end; fail).
    - destruct IHa1 as [F1 G1], IHa2 as [F2 G2].
      assert (Hinv : forall op, addmul op -> forall l l',
        match snd (seqm a1) op l with Some l1 => snd (seqm a2) op l1 | None => None end = Some l' ->
        forall rho v, evs op l rho v <-> exists p q,
          (exists p1 p2, ev a1 rho p1 /\ ev a2 rho p2 /\ p = cop op p1 p2) /\ evs op l' rho q /\ v = cop op p q).
      { intros op Hop l l' H rho v. destruct (snd (seqm a1) op l) as [l1|] eqn:E1; [|discriminate].
        rewrite (G1 op Hop _ _ E1). split.
        - intros (p & q & H1 & H2 & ->). apply (G2 op Hop _ _ H) in H2. destruct H2 as (p' & q' & H2 & H3 & ->).
          exists (cop op p p'), q'. split; [eauto|split; auto]. apply cop_assoc.
        - intros (p & q & (p1 & p2 & H1 & H2 & ->) & H3 & ->).
          exists p1, (cop op p2 q). split; auto. split.
          + apply (G2 op Hop _ _ H). eauto.
          + symmetry. apply cop_assoc. }
      assert (Hs : forall b, fst (seqm (EBin o a1 a2)) b = true ->
                   forall rho v, ev (EBin o a1 a2) rho v <-> ev b rho v).
      { intros b Hb rho v. simpl in Hb. destruct b; try discriminate.
        apply andb_prop in Hb. destruct Hb as [Ho Hb]. apply binop_eqb_eq in Ho. subst o0.
        apply orb_prop in Hb. destruct Hb as [Hb|Hb].
        - apply andb_prop in Hb. destruct Hb as [H1 H2].
          pose proof (F1 _ H1) as E1. pose proof (F2 _ H2) as E2. simpl.
          destruct o;
            try (split; intros (p & q & K1 & K2 & K3); exists p, q;
                 (split; [now apply E1|split; [now apply E2|exact K3]]); fail); try tauto.
          (* derivative *)
          assert (Hv : forall x, a2 = EVar x <-> b2 = EVar x).
          { intros x. clear - H2. destruct a2, b2; simpl in H2; try discriminate;
              try (split; discriminate).
            all: try (destruct (unop_eqb _ _); discriminate).
            destruct (String.eqb x0 x1) eqn:E; [|discriminate]. apply String.eqb_eq in E. subst. tauto. }
          destruct a2, b2; try tauto; try (specialize (Hv x); destruct Hv as [A B];
              first [discriminate (A eq_refl)|discriminate (B eq_refl)]; fail).
          assert (x0 = x) by (destruct (Hv x) as [A _]; specialize (A eq_refl); congruence). subst.
          split; intros (f & d & K1 & K2 & K3); exists f, d; (split; [|auto]);
            revert K1; apply filter_imp; intros t; apply E1.
        - apply andb_prop in Hb. destruct Hb as [Ho Hb].
          assert (Hop : addmul o) by (destruct o; try discriminate; [now left|now right]).
          destruct (match snd (seqm a1) o (flatten o b1 b2) with Some l1 => snd (seqm a2) o l1 | None => None end) as [[|]|] eqn:E; try discriminate.
          rewrite (flatten_ev o b1 b2) by assumption. rewrite (Hinv o Hop _ _ E).
          rewrite ev_node by assumption. split.
          + intros (p & q & K1 & K2 & ->). exists (cop o p q), (cunit o). split; [eauto|].
            rewrite evs_nil, cop_unit_r. auto.
          + intros (p & q & K1 & K2 & ->). apply evs_nil in K2. subst. now rewrite cop_unit_r. }
      split; [exact Hs|].
      intros op Hop l l' H rho v. simpl in H. destruct (binop_eqb op o) eqn:E.
      + apply binop_eqb_eq in E. subst o. rewrite (Hinv op Hop _ _ H).
        split; intros (p & q & K1 & K2); exists p, q; (split; [now apply ev_node|auto]).
      + exact (Hrem _ _ Hs op l l' H rho v).
    - destruct IHa as [F _].
      assert (Hs : forall b, fst (seqm (EUn o a)) b = true ->
                   forall rho v, ev (EUn o a) rho v <-> ev b rho v).
      { intros b Hb rho v. simpl in Hb. destruct b; try discriminate.
        apply andb_prop in Hb. destruct Hb as [Ho Hb]. apply unop_eqb_eq in Ho. subst o0.
        pose proof (F _ Hb) as E. simpl.
        destruct o; split; intros (p & H1 & H2); exists p; (split; [now apply E|auto]). }
      split; [exact Hs|]. intros op _ l l' H. exact (Hrem _ _ Hs op l l' H).
  Qed.

  Lemma eq_strict_ev a b rho v : eq_strict a b = true -> (ev a rho v <-> ev b rho v).
  Proof. intros H. now apply (proj1 (seqm_ev a)). Qed.
End Sem.
