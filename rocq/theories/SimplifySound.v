(** Every rule of SimplifyVisitor keeps the value, as long as no ghost event is
    recorded. *)
From Coq Require Import String Bool ZArith Reals Lra Lia.
From Coquelicot Require Import Coquelicot.
From Coq Require Import List Permutation.
From Verif Require Import Base Num Expr Ghost Simplify Spec TreeProofs PowProofs SemProofs MonadProofs.
Import ListNotations.
Open Scope R_scope.

Section Sound.
  Context {num : Type} {N : NumOps num}.
  Variable toR : num -> R.
  Hypothesis HE : Exact N toR.
  Notation expr := (expr num).
  Notation ev := (ev toR).
  Notation evs := (evs toR).

  Definition refines (e r : expr) : Prop := forall rho v, ev e rho v -> ev r rho v.

  (** *** Literals *)
  Lemma toR_eqb a b : n_eqb a b = true -> toR a = toR b.
  Proof. apply (ex_eqb N toR HE). Qed.
  Lemma toR_Z z : toR (n_of_Z z) = IZR z.
  Proof. apply (ex_of_Z N toR HE). Qed.
  Lemma eqb_Z a z : n_eqb a (n_of_Z z) = true -> toR a = IZR z.
  Proof. intros H. apply toR_eqb in H. now rewrite toR_Z in H. Qed.
  Lemma ltb_Z a z : n_ltb a (n_of_Z z) = true -> toR a < IZR z.
  Proof. intros H. apply (ex_ltb N toR HE) in H. now rewrite toR_Z in H. Qed.
  Lemma leb_Z a z : n_leb a (n_of_Z z) = true -> toR a <= IZR z.
  Proof. intros H. apply (ex_leb N toR HE) in H. now rewrite toR_Z in H. Qed.
  Lemma Z_ltb a z : n_ltb (n_of_Z z) a = true -> IZR z < toR a.
  Proof. intros H. apply (ex_ltb N toR HE) in H. now rewrite toR_Z in H. Qed.

  Lemma is_int_spec c : is_int c = true -> exists z, toR c = IZR z.
  Proof.
    unfold is_int. destruct (n_round c) as [z|]; [|discriminate]. intros H. exists z. now apply eqb_Z.
  Qed.
  Lemma not_even_spec c z : is_even c = false -> toR c = IZR z -> Z.even z = false.
  Proof.
    unfold is_even. intros H E. rewrite (ex_round N toR HE _ _ E) in H.
    assert (Hq : n_eqb c (n_of_Z z) = true) by (apply (ex_eqb N toR HE); now rewrite toR_Z).
    now rewrite Hq in H.
  Qed.

  (** *** Values of nodes *)
  Lemma ev_real z rho : ev (real z) rho (RtoC (IZR z)).
  Proof. simpl. now rewrite toR_Z. Qed.
  Lemma ev_add a b rho p q : ev a rho p -> ev b rho q -> ev (EAdd a b) rho (Cplus p q).
  Proof. simpl. eauto 6. Qed.
  Lemma ev_sub a b rho p q : ev a rho p -> ev b rho q -> ev (ESub a b) rho (Cminus p q).
  Proof. simpl. eauto 6. Qed.
  Lemma ev_mul a b rho p q : ev a rho p -> ev b rho q -> ev (EMul a b) rho (Cmult p q).
  Proof. simpl. eauto 6. Qed.
  Lemma ev_div a b rho p q : ev a rho p -> ev b rho q -> q <> RtoC 0 -> ev (EDiv a b) rho (Cdiv p q).
  Proof. simpl. eauto 7. Qed.
  Lemma ev_exp a b rho p q v : ev a rho p -> ev b rho q -> cpow p q v -> ev (EExp a b) rho v.
  Proof. simpl. eauto 6. Qed.
  Lemma ev_log a b rho p q v : ev a rho p -> ev b rho q -> clog p q v -> ev (ELog a b) rho v.
  Proof. simpl. eauto 6. Qed.
  Lemma ev_eq e rho v w : ev e rho v -> v = w -> ev e rho w.
  Proof. now intros H <-. Qed.

  (** The value of an expression without imaginary unit is real. *)
  Lemma imag_free_real : forall e rho v, imag_free e = true -> ev e rho v -> exists x, v = RtoC x.
  Proof.
    induction e; intros rho v Hf; simpl.
    - intros ->; eauto.
    - discriminate.
    - intros ->; eauto.
    - tauto.
    - intros ->; eauto.
    - intros ->; eauto.
    - tauto.
    - simpl in Hf. apply andb_prop in Hf. destruct Hf as [F1 F2].
      destruct o.
      + intros (p & q & H1 & H2 & ->). destruct (IHe1 _ _ F1 H1) as [x ->], (IHe2 _ _ F2 H2) as [y ->].
        exists (x + y). now rewrite RtoC_plus.
      + intros (p & q & H1 & H2 & ->). destruct (IHe1 _ _ F1 H1) as [x ->], (IHe2 _ _ F2 H2) as [y ->].
        exists (x - y). now rewrite RtoC_minus.
      + intros (p & q & H1 & H2 & ->). destruct (IHe1 _ _ F1 H1) as [x ->], (IHe2 _ _ F2 H2) as [y ->].
        exists (x * y). now rewrite RtoC_mult.
      + intros (p & q & H1 & H2 & Hn & ->). destruct (IHe1 _ _ F1 H1) as [x ->], (IHe2 _ _ F2 H2) as [y ->].
        exists (x / y). rewrite RtoC_div; auto. intros E. apply Hn. now subst.
      + intros (p & q & H1 & H2 & H3). destruct (IHe1 _ _ F1 H1) as [x ->].
        apply cpow_inv in H3. destruct H3 as [(z & E & Hz & ->)|[(y & s & E1 & E2 & E3 & ->)|(s & E1 & E2 & E3 & ->)]]; eauto.
        destruct (Req_dec x 0) as [->|Hx].
        * destruct Hz as [Hz|Hz]; [congruence|]. exists 0. now apply cpowz_0.
        * exists (powerRZ x z). now apply cpowz_R.
      + intros (p & q & H1 & H2 & (x & y & _ & _ & _ & _ & _ & ->)). eauto.
      + destruct e2; try tauto. intros (f & d & _ & _ & ->). eauto.
      + tauto.
    - destruct o; simpl in Hf.
      + intros (w & H & ->). destruct (IHe _ _ Hf H) as [x ->]. exists (- x). now rewrite RtoC_opp.
      + intros (t & H & ->). eauto.
      + intros (w & H & ->). eauto.
  Qed.

  Lemma evident_pos_spec : forall e rho v, evident_pos e = true -> ev e rho v -> exists x, v = RtoC x /\ 0 < x.
  Proof.
    induction e; intros rho v Hp; simpl in Hp; try discriminate; simpl.
    - intros ->. exists (toR c). split; auto. now apply Z_ltb in Hp.
    - intros ->. exists (exp 1). split; auto. apply exp_pos.
    - intros ->. exists PI. split; auto. apply PI_RGT_0.
    - destruct o; try discriminate.
      + apply andb_prop in Hp. destruct Hp as [F1 F2]. intros (p & q & H1 & H2 & ->).
        destruct (IHe1 _ _ F1 H1) as (x & -> & Hx), (IHe2 _ _ F2 H2) as (y & -> & Hy).
        exists (x + y). rewrite RtoC_plus. split; auto. lra.
      + apply andb_prop in Hp. destruct Hp as [F1 F2]. intros (p & q & H1 & H2 & ->).
        destruct (IHe1 _ _ F1 H1) as (x & -> & Hx), (IHe2 _ _ F2 H2) as (y & -> & Hy).
        exists (x * y). rewrite RtoC_mult. split; auto. now apply Rmult_lt_0_compat.
      + apply andb_prop in Hp. destruct Hp as [F1 F2]. intros (p & q & H1 & H2 & Hn & ->).
        destruct (IHe1 _ _ F1 H1) as (x & -> & Hx), (IHe2 _ _ F2 H2) as (y & -> & Hy).
        exists (x / y). rewrite RtoC_div by lra. split; auto. now apply Rdiv_lt_0_compat.
      + intros (p & q & H1 & H2 & H3). destruct (IHe1 _ _ Hp H1) as (x & -> & Hx).
        destruct (cpow_exponent_real _ _ _ H3) as [r ->]. apply cpow_real_iff in H3; auto.
        exists (Rpower x r). split; auto. unfold Rpower. apply exp_pos.
  Qed.

  (** A valued expression is equal to itself. *)
  Lemma eqb_refl c : n_eqb c c = true.
  Proof. now apply (ex_eqb N toR HE). Qed.

  Lemma eq_strict_refl : forall e rho v, ev e rho v -> eq_strict e e = true.
  Proof.
    unfold eq_strict. induction e; intros rho v; simpl.
    - intros _. now rewrite eqb_refl.
    - auto.
    - intros _. now rewrite String.eqb_refl.
    - tauto.
    - auto.
    - auto.
    - tauto.
    - rewrite binop_eqb_refl.
      assert (H : forall p q, ev e1 rho p -> ev e2 rho q ->
        fst (seqm e1) e1 && fst (seqm e2) e2 = true).
      { intros p q H1 H2. now rewrite (IHe1 _ _ H1), (IHe2 _ _ H2). }
      assert (K : fst (seqm e1) e1 && fst (seqm e2) e2 = true ->
        true && (fst (seqm e1) e1 && fst (seqm e2) e2 || match o with OAdd | OMul => true | _ => false end
               && match
                    match snd (seqm e1) o (flatten o e1 e2) with
                    | Some lst' => snd (seqm e2) o lst'
                    | None => None
                    end with Some [] => true | _ => false end) = true).
      { intros ->. reflexivity. }
      destruct o; try (intros (p & q & H1 & H2 & _); apply K; eauto; fail).
      + destruct e2; try tauto. intros (f & d & H1 & _). apply K.
        apply locally_singleton in H1. simpl. rewrite String.eqb_refl.
        rewrite (IHe1 _ _ H1). reflexivity.
      + tauto.
    - rewrite unop_eqb_refl. destruct o; intros (w & H & _); now rewrite (IHe _ _ H).
  Qed.

  (** *** Equality tests *)
  Lemma m_eq_true a b rho v : runs (m_eq a b) true -> (ev a rho v <-> ev b rho v).
  Proof.
    unfold m_eq. destruct (equals a b) as [c|]; intros H; minv.
    match goal with E : (_ && _)%bool = false |- _ => simpl in E; apply negb_false_iff in E end.
    now apply (eq_strict_ev toR toR_eqb).
  Qed.

  (** *** Casts *)
  Ltac fits_inv :=
    repeat match goal with
           | H : fits (PBin _ _ _) _ |- _ => inversion H; subst; clear H
           | H : fits (PUn _ _) _ |- _ => inversion H; subst; clear H
           | H : fits PReal _ |- _ => inversion H; subst; clear H
           | H : fits PImag _ |- _ => inversion H; subst; clear H
           | H : fits PVar _ |- _ => inversion H; subst; clear H
           | H : fits PEuler _ |- _ => inversion H; subst; clear H
           | H : fits PMat _ |- _ => inversion H; subst; clear H
           | H : fits PAny _ |- _ => clear H
           end.

  (** In [H], replace the match on a cast by its successful branch. *)
  Ltac cast_in H :=
    let c := fresh "c" in let E := fresh "Ecast" in
    match type of H with
    | context [rcast ?p ?e] =>
      destruct (rcast p e) as [c|] eqn:E;
      [ let F := fresh "F" in
        pose proof (proj1 (rcast_sound _ _ _ E)) as F;
        pose proof (reorders_ev toR _ _ (proj2 (rcast_sound _ _ _ E)));
        unfold pMulExp, pMulRE, pMul, pAdd, pSub, pDiv, pExp, pLog, pMulImag, pMulVar,
          pExpImag, pExpVar, pExpReal in F;
        fits_inv; clear E; cbn [as_real as_var as_bin as_binvar as_binreal as_binmulre] in H
      | cbn [as_real as_var as_bin as_binvar as_binreal as_binmulre] in H ]
    end.

  (* use the value equivalence left by [cast_in] on [Hv] *)
  Ltac cast_ev Hv :=
    match goal with
    | Hc : forall rho v, ev ?e rho v <-> ev _ rho v |- _ =>
      match type of Hv with ev e _ _ => apply Hc in Hv; clear Hc end
    end.

  Definition rsound (o : binop) (r : expr -> expr -> rule) : Prop :=
    forall a b e, runs (r a b) (Some e) -> refines (EBin o a b) e.

  Lemma first_rule_sound o rs def :
    List.Forall (rsound o) rs ->
    (forall a b e, runs (def a b) e -> refines (EBin o a b) e) ->
    forall a b e, runs (first_rule rs def a b) e -> refines (EBin o a b) e.
  Proof.
    intros Hrs Hd a b e. induction Hrs as [|r rs Hr _ IH]; simpl; [apply Hd|].
    intros H. minv. destruct y as [e'|]; minv; auto.
  Qed.

  Variable S : expr -> M expr.
  Hypothesis HS : forall e r, runs (S e) r -> refines e r.

  Lemma operands_sound o k :
    (o <> ODeriv) ->
    (forall a b e, runs (k a b) e -> refines (EBin o a b) e) ->
    forall a b e, runs (operands S a b k) e -> refines (EBin o a b) e.
  Proof.
    intros Ho Hk a b e H. unfold operands in H. minv.
    apply (proj1 (runs_try _ _)) in Hr. apply (proj1 (runs_try _ _)) in Hr0.
    destruct Hr as [(a' & Ra & ->)|(s & _ & ->)]; [|minv].
    destruct Hr0 as [(b' & Rb & ->)|(s & _ & ->)]; [|minv].
    intros rho v Hv. apply (Hk _ _ _ H). simpl in *.
    destruct o; try (destruct Hv as (p & q & H1 & H2 & H3); exists p, q;
      (split; [now apply (HS _ _ Ra)|split; [now apply (HS _ _ Rb)|exact H3]]); fail); tauto.
  Qed.

  (* destruct the values of the parts in [Hv] *)
  Ltac ev_inv Hv :=
    cbn [Spec.ev] in Hv;
    repeat match goal with
           | H : exists _, _ |- _ => let x := fresh "v" in destruct H as [x H]
           | H : _ /\ _ |- _ => let H1 := fresh "V" in destruct H as [H1 H]
           end;
    subst.

  (* turn facts about S and tests into facts about values *)
  Ltac use_s := repeat match goal with H : runs (S _) _ |- _ => apply HS in H end.
  Ltac use_q :=
    repeat match goal with
           | q : bool |- _ => destruct q
           | H : runs (m_eq ?a ?b) true |- _ => pose proof (fun rho v => m_eq_true a b rho v H); clear H
           end.

  Hint Resolve ev_real ev_add ev_sub ev_mul : evdb.

  (* merge the values of equal expressions *)
  Ltac uniq :=
    repeat match goal with
           | H1 : ev ?e ?rho ?p, H2 : ev ?e ?rho ?q |- _ =>
             lazymatch p with q => clear H2 | _ => idtac end;
             let E := fresh in pose proof (ev_fun toR _ _ _ _ H2 H1) as E; clear H2;
             first [subst q | subst p | rewrite E in *]
           end.
  Ltac sat :=
    uniq;
    repeat match goal with
           | Q : forall rho v, ev ?a rho v <-> ev ?b rho v, H1 : ev ?a ?rho ?p, H2 : ev ?b ?rho ?q |- _ =>
             lazymatch p with q => fail | _ => idtac end;
             let E := fresh in pose proof (ev_fun toR _ _ _ _ (proj2 (Q _ _) H2) H1) as E;
             first [subst q | subst p]
           | Q : forall rho v, ev ?a rho v <-> ev ?b rho v, H1 : ev ?a ?rho ?p |- _ =>
             lazymatch goal with _ : ev b rho _ |- _ => fail | _ => idtac end;
             pose proof (proj1 (Q _ _) H1)
           | Q : forall rho v, ev ?a rho v <-> ev ?b rho v, H1 : ev ?b ?rho ?p |- _ =>
             lazymatch goal with _ : ev a rho _ |- _ => fail | _ => idtac end;
             pose proof (proj2 (Q _ _) H1)
           end; uniq.
  Ltac evg1 :=
    match goal with
    | R : refines _ ?r |- ev ?r _ _ => apply R
    | H : ev ?e ?rho _ |- ev ?e ?rho _ => exact H
    | |- ev (real _) _ _ => apply ev_real
    | |- ev (EBin OAdd _ _) _ _ => eapply ev_add
    | |- ev (EBin OSub _ _) _ _ => eapply ev_sub
    | |- ev (EBin OMul _ _) _ _ => eapply ev_mul
    | |- ev (EBin ODiv _ _) _ _ => eapply ev_div
    | |- ev (EBin OExp _ _) _ _ => eapply ev_exp
    | |- ev (EBin OLog _ _) _ _ => eapply ev_log
    | |- ev (EReal _) _ _ => reflexivity
    | |- ev EImag _ _ => reflexivity
    | |- ev (EVar _) _ _ => reflexivity
    | H : cpow ?b ?p _ |- cpow ?b ?p _ => exact H
    | |- cpow _ (RtoC 1) _ => apply cpow_1
    | |- cpow _ (RtoC 2) _ => apply cpow_2
    | |- cpow _ (Cplus _ _) _ => eapply cpow_plus
    | H : ?q <> RtoC 0 |- ?q <> RtoC 0 => exact H
    end.
  Ltac evg := repeat evg1.
  Ltac start := intros rho v Hv; try cast_ev Hv; ev_inv Hv; sat.
  Ltac go := start; eapply ev_eq; [evg|].
  Ltac rule d := let H := fresh in intros a b e H; unfold d in H; cast_in H; minv; use_s; use_q; minv; use_s.
  Ltac lits := unfold n0, n1, n2, nm1; repeat (rewrite (ex_add N toR HE) || rewrite (ex_sub N toR HE) || rewrite (ex_mul N toR HE)
    || rewrite toR_Z || rewrite RtoC_plus || rewrite RtoC_minus || rewrite RtoC_mult).

  Lemma C_two : RtoC 2 = Cplus (RtoC 1) (RtoC 1).
  Proof. rewrite <- RtoC_plus. f_equal. Qed.
  Lemma C_m1 : RtoC (-1) = Copp (RtoC 1).
  Proof. rewrite <- RtoC_opp. reflexivity. Qed.
  Ltac cring := cbn [cop cunit]; rewrite ?C_two, ?C_m1; ring.

  Ltac dif H E := match type of H with runs (if ?c then _ else _) _ => destruct c eqn:E; minv end.

  (** *** Add *)
  Lemma add_94_sound : rsound OAdd add_94.
  Proof. rule (@add_94). go. lits. cring. Qed.

  Lemma add_101_sound : rsound OAdd add_101.
  Proof.
    intros a b e H. unfold add_101 in H. cast_in H; minv.
    dif H E. apply eqb_Z in E. go. rewrite E. cring.
  Qed.

  Lemma add_107_sound : rsound OAdd add_107.
  Proof. rule (@add_107). go. lits. cring. Qed.

  Lemma add_120_sound : rsound OAdd add_120.
  Proof.
    intros a b e H. unfold add_120 in H. cast_in H; minv. start. contradiction.
  Qed.

  Lemma clog_mult b p q u w : clog b p u -> clog b q w -> clog b (Cmult p q) (Cplus u w).
  Proof.
    intros (x & y & -> & -> & Hx & Hx1 & Hy & ->) (x' & y' & E & -> & _ & _ & Hy' & ->).
    apply RtoC_inj in E. subst x'. exists x, (y * y'). repeat split; auto.
    - now rewrite RtoC_mult.
    - now apply Rmult_lt_0_compat.
    - rewrite ln_mult by assumption. rewrite <- RtoC_plus. f_equal. field. now apply ln_neq_0'.
  Qed.
  Lemma clog_div b p q u w : clog b p u -> clog b q w -> clog b (Cdiv p q) (Cminus u w).
  Proof.
    intros (x & y & -> & -> & Hx & Hx1 & Hy & ->) (x' & y' & E & -> & _ & _ & Hy' & ->).
    apply RtoC_inj in E. subst x'. exists x, (y / y'). repeat split; auto.
    - rewrite RtoC_div; auto. lra.
    - now apply Rdiv_lt_0_compat.
    - rewrite ln_div by assumption. rewrite <- RtoC_minus. f_equal. field. now apply ln_neq_0'.
  Qed.
  Lemma clog_arg_neq_0 b p u : clog b p u -> p <> RtoC 0.
  Proof. intros (x & y & -> & -> & _ & _ & Hy & _) E. apply RtoC_inj in E. lra. Qed.

  Lemma add_132_sound : rsound OAdd add_132.
  Proof.
    rule (@add_132). go.
    - eapply clog_mult; eassumption.
    - reflexivity.
  Qed.

  Lemma add_141_sound : rsound OAdd (add_141 S).
  Proof.
    intros a b e H. unfold add_141 in H. minv. use_q; minv. use_s. go. cring.
  Qed.

  Lemma add_146_sound : rsound OAdd add_146.
  Proof. rule (@add_146). go. lits. cring. Qed.

  (** *** Collecting loops *)
  Lemma scan_sound o f rho w :
    (forall u u' p, runs (f u) (Some u') -> ev u rho p -> ev u' rho (cop o p w)) ->
    forall l l' v, runs (scan f l) (Some l') -> evs o l rho v -> evs o l' rho (cop o v w).
  Proof.
    intros Hf. induction l as [|u l IH]; intros l' v H; simpl in H; minv.
    destruct y as [u'|]; minv.
    - rewrite !evs_cons. intros (p & q & H1 & H2 & ->). exists (cop o p w), q.
      repeat split; eauto. rewrite <- !cop_assoc. f_equal. apply cop_comm.
    - destruct y as [l''|]; simpl in H; minv.
      rewrite !evs_cons. intros (p & q & H1 & H2 & ->). exists p, (cop o q w).
      repeat split; eauto. symmetry. apply cop_assoc.
  Qed.

  Lemma scan_or_push_sound o f d rho w l l' v :
    (forall u u' p, runs (f u) (Some u') -> ev u rho p -> ev u' rho (cop o p w)) ->
    (forall e, runs d e -> ev e rho w) ->
    runs (scan_or_push f l d) l' -> evs o l rho v -> evs o l' rho (cop o v w).
  Proof.
    intros Hf Hd H Hl. unfold scan_or_push in H. minv. destruct y as [l''|]; minv.
    - eapply scan_sound; eauto.
    - apply evs_app. exists v, w. repeat split; auto. apply evs_one. auto.
  Qed.

  Lemma foldM_sound o f rho :
    (forall acc x acc' p w, runs (f acc x) acc' -> evs o acc rho p -> ev x rho w -> evs o acc' rho (cop o p w)) ->
    forall l acc acc' p w, runs (foldM f acc l) acc' -> evs o acc rho p -> evs o l rho w ->
      evs o acc' rho (cop o p w).
  Proof.
    intros Hf. induction l as [|x l IH]; intros acc acc' p w H Hacc Hl; simpl in H; minv.
    - apply evs_nil in Hl. subst. now rewrite cop_unit_r.
    - apply evs_cons in Hl. destruct Hl as (u & q & Hx & Hl & ->). rewrite cop_assoc. eauto.
  Qed.

  Ltac use_all := use_s; repeat match goal with
    | H : runs (if ?c then _ else _) _ |- _ => destruct c eqn:?; minv
    end.

  Lemma add_collect_sound rho acc x acc' p w :
    runs (add_collect S acc x) acc' -> evs OAdd acc rho p -> ev x rho w -> evs OAdd acc' rho (cop OAdd p w).
  Proof.
    intros H Hacc Hx. unfold add_collect in H.
    cast_in H.
    { pose proof Hx as Hx'. cast_ev Hx. ev_inv Hx. eapply scan_or_push_sound; [| |exact H|exact Hacc]; cbv beta.
      - intros u u' r Hu Hr. destruct u; minv. ev_inv Hr. simpl. lits. reflexivity.
      - intros e' He. minv. exact Hx'. }
    cast_in H.
    { pose proof Hx as Hx'. cast_ev Hx. ev_inv Hx. eapply scan_or_push_sound; [| |exact H|exact Hacc]; cbv beta.
      - intros u u' r Hu Hr. unfold add_collect_img in Hu. cast_in Hu; minv. use_s.
        cast_ev Hr. ev_inv Hr. sat.  eapply ev_eq; [evg|]. cring.
      - intros e' He. minv.  eapply ev_eq; [evg|]. cring. }
    cast_in H.
    { cast_ev Hx. ev_inv Hx. eapply scan_or_push_sound; [| |exact H|exact Hacc]; cbv beta.
      - intros u u' r Hu Hr. unfold add_collect_img in Hu. cast_in Hu; minv. use_s.
        cast_ev Hr. ev_inv Hr. sat. eapply ev_eq; [evg|]. cring.
      - intros e' He. minv. eapply ev_eq; [evg|]. cring. }
    cast_in H.
    { pose proof Hx as Hx'. cast_ev Hx. ev_inv Hx. eapply scan_or_push_sound; [| |exact H|exact Hacc]; cbv beta.
      - intros u u' r Hu Hr. unfold add_collect_var in Hu. cast_in Hu; minv.
        destruct (x1 =? x0)%string eqn:E; minv. apply String.eqb_eq in E. subst. use_s.
        cast_ev Hr. ev_inv Hr. sat.  eapply ev_eq; [evg|]. cring.
      - intros e' He. minv.  eapply ev_eq; [evg|]. cring. }
    cast_in H.
    { cast_ev Hx. ev_inv Hx. eapply scan_or_push_sound; [| |exact H|exact Hacc]; cbv beta.
      - intros u u' r Hu Hr. unfold add_collect_var in Hu. cast_in Hu; minv.
        destruct (x1 =? x0)%string eqn:E; minv. apply String.eqb_eq in E. subst. use_s.
        cast_ev Hr. ev_inv Hr. sat. eapply ev_eq; [evg|]. cring.
      - intros e' He. minv. eapply ev_eq; [evg|]. cring. }
    cast_in H.
    { cast_ev Hx. eapply scan_or_push_sound; [| |exact H|exact Hacc]; cbv beta.
      - intros u u' r Hu Hr. unfold add_collect_exp in Hu. cast_in Hu; minv. use_q; minv. use_s.
        cast_ev Hr. cbn [Spec.ev] in Hr. destruct Hr as (p1 & p2 & P1 & P2 & ->).
        match goal with Q : forall rho v, ev (EExp _ _) rho v <-> ev (EExp a b) rho v |- _ => apply Q in P2 end.
        pose proof (ev_fun toR _ _ _ _ Hx P2). subst p2.
        eapply ev_eq; [eapply ev_mul; [apply Hr0; evg|exact Hx]|]. cring.
      - intros e' He. minv. eapply ev_eq; [eapply ev_mul; [evg|exact Hx]|]. cring. }
    cast_in H.
    { cast_ev Hx. cbn [Spec.ev] in Hx. destruct Hx as (p3 & p4 & P3 & P4 & ->).
      match type of H with runs (scan_or_push (add_collect_exp _ ?t _ _) _ _) _ => change (ev t rho p4) in P4 end.
      eapply scan_or_push_sound; [| |exact H|exact Hacc]; cbv beta.
      - intros u u' r Hu Hr. unfold add_collect_exp in Hu. cast_in Hu; minv. use_q; minv. use_s.
        cast_ev Hr. cbn [Spec.ev] in Hr. destruct Hr as (p1 & p2 & P1 & P2 & ->).
        match goal with Q : forall rho v, ev (EExp _ _) rho v <-> ev (EExp _ _) rho v |- _ => pose proof (proj1 (Q _ _) P2) as P5 end.
        pose proof (ev_fun toR _ _ _ _ P4 P5). subst p4.
        eapply ev_eq; [eapply ev_mul; [apply Hr0; evg|exact P2]|]. cring.
      - intros e' He. minv. eapply ev_eq; [eapply ev_mul; [evg|exact P4]|]. cring. }
    minv. apply evs_app. exists p, w. repeat split; auto. now apply evs_one.
  Qed.

  Lemma strip_coef_ev e rho v : ev e rho v -> ev (strip_coef e) rho v.
  Proof.
    intros H. unfold strip_coef. destruct (rcast pMulRE e) eqn:E; auto.
    pose proof (rcast_sound _ _ _ E) as [F Q]. apply (reorders_ev toR) with (1 := Q) in H.
    unfold pMulRE in F. fits_inv. destruct (n_eqb c n1) eqn:En; [|now apply (rcast_ev toR _ _ _ rho v E)].
    apply eqb_Z in En. ev_inv H. rewrite En. eapply ev_eq; [evg|]. cring.
  Qed.

  Lemma add_zero_ev e rho v : add_zero_bad e = false -> add_zero e = true -> ev e rho v -> v = RtoC 0.
  Proof.
    unfold add_zero_bad, add_zero. intros Hb Hz H.
    assert (K : forall c, (tiny c && negb (n_eqb c n0))%bool = false -> tiny c = true -> toR c = 0).
    { intros c Hc Ht. rewrite Ht in Hc. simpl in Hc. apply negb_false_iff in Hc. now apply eqb_Z in Hc. }
    destruct (rcast PReal e) as [r|] eqn:E.
    - pose proof (rcast_sound _ _ _ E) as [F Q]. apply (reorders_ev toR) with (1 := Q) in H.
      inversion F; subst. ev_inv H. f_equal. auto.
    - destruct (rcast pMulRE e) as [r|] eqn:E'; [|discriminate].
      pose proof (rcast_sound _ _ _ E') as [F Q]. apply (reorders_ev toR) with (1 := Q) in H.
      unfold pMulRE in F. fits_inv. ev_inv H. rewrite (K c) by assumption. cring.
  Qed.

  Lemma add_filter_ev l rho v : existsb add_zero_bad l = false -> evs OAdd l rho v ->
    evs OAdd (filter (fun e => negb (add_zero e)) l) rho v.
  Proof.
    revert v. induction l as [|e l IH]; intros v Hb H; simpl; auto.
    simpl in Hb. apply orb_false_iff in Hb. destruct Hb as [Hb1 Hb2].
    apply evs_cons in H. destruct H as (p & q & H1 & H2 & ->).
    destruct (add_zero e) eqn:E; simpl.
    - rewrite (add_zero_ev _ _ _ Hb1 E H1). rewrite Cplus_0_l. auto.
    - apply evs_cons. exists p, q. auto.
  Qed.

  Lemma evs_map o (f : expr -> expr) l rho v : (forall e w, ev e rho w -> ev (f e) rho w) ->
    evs o l rho v -> evs o (map f l) rho v.
  Proof.
    intros Hf. revert v. induction l as [|e l IH]; intros v H; simpl; auto.
    apply evs_cons in H. destruct H as (p & q & H1 & H2 & ->). apply evs_cons. exists p, q. auto.
  Qed.

  Lemma foldM_flat o f a b rho v l : addmul o ->
    (forall acc x acc' p w, runs (f acc x) acc' -> evs o acc rho p -> ev x rho w -> evs o acc' rho (cop o p w)) ->
    runs (foldM f [] (flatten o a b)) l -> ev (EBin o a b) rho v -> evs o l rho v.
  Proof.
    intros Ho Hf H Hv. apply (flatten_ev toR) in Hv; auto.
    rewrite <- (cop_unit_l o v). eapply foldM_sound; eauto. now apply evs_nil.
  Qed.

  Lemma add_rest_sound a b e : runs (add_rest S a b) e -> refines (EAdd a b) e.
  Proof.
    intros H rho v Hv. unfold add_rest in H. minv.
    destruct (build OAdd _) as [t|] eqn:E; minv; auto.
    apply (build_ev toR _ _ _ _ _ (or_introl eq_refl) E). apply add_filter_ev; auto.
    apply evs_map; [intros; now apply strip_coef_ev|].
    eapply foldM_flat; eauto; [now left|]. intros; eapply add_collect_sound; eauto.
  Qed.

  Lemma visit_add_sound a b e : runs (visit_add S a b) e -> refines (EAdd a b) e.
  Proof.
    unfold visit_add. apply operands_sound; [discriminate|]. apply first_rule_sound; [|apply add_rest_sound].
    repeat constructor; auto using add_94_sound, add_101_sound, add_107_sound, add_120_sound, add_132_sound,
      add_141_sound, add_146_sound.
  Qed.

  (** *** Subtract *)
  Lemma sub_360_sound : rsound OSub sub_360.
  Proof. rule (@sub_360). go. lits. cring. Qed.
  Lemma sub_368_sound : rsound OSub sub_368.
  Proof. intros a b e H. unfold sub_368 in H. minv. use_q; minv. go. cring. Qed.
  Lemma sub_372_sound : rsound OSub sub_372.
  Proof. intros a b e H. unfold sub_372 in H. cast_in H; minv. start. contradiction. Qed.
  Lemma sub_384_sound : rsound OSub (sub_384 S).
  Proof. rule (@sub_384). go. cring. Qed.
  Lemma sub_392_sound : rsound OSub (sub_392 S).
  Proof. rule (@sub_392). go. cring. Qed.
  Lemma sub_400_sound : rsound OSub (sub_400 S).
  Proof. rule (@sub_400). go. cring. Qed.
  Lemma sub_408_sound : rsound OSub sub_408.
  Proof.
    rule (@sub_408). go.
    - eapply clog_arg_neq_0; eassumption.
    - eapply clog_div; eassumption.
    - reflexivity.
  Qed.
  Lemma sub_418_sound : rsound OSub (sub_418 S).
  Proof. rule (@sub_418). intros rho v Hv. ev_inv Hv. cast_ev V0. ev_inv V0. eapply ev_eq; [evg|]. cring. Qed.
  Lemma sub_434_sound : rsound OSub (sub_434 S).
  Proof. rule (@sub_434). intros rho v Hv. ev_inv Hv. cast_ev V0. ev_inv V0. eapply ev_eq; [evg|]. cring. Qed.

  Lemma visit_sub_sound a b e : runs (visit_sub S a b) e -> refines (ESub a b) e.
  Proof.
    unfold visit_sub. apply operands_sound; [discriminate|]. apply first_rule_sound.
    - repeat constructor; auto using sub_360_sound, sub_368_sound, sub_372_sound, sub_384_sound, sub_392_sound,
        sub_400_sound, sub_408_sound, sub_418_sound, sub_434_sound.
    - intros a' b' e' H. use_s. go. cring.
  Qed.

  (** *** Multiply *)
  Lemma mul_478_sound : rsound OMul (mul_478 S).
  Proof.
    intros a b e H. unfold mul_478 in H. cast_in H; minv. dif H E.
    - use_s. match goal with K : n_eqb _ n0 = true |- _ => apply eqb_Z in K; rename K into Hz end.
      go. rewrite Hz. cring.
    - dif H E'. apply eqb_Z in E'. use_s. go. rewrite E'. cring.
  Qed.
  Lemma mul_488_sound : rsound OMul mul_488.
  Proof. rule (@mul_488). go. lits. cring. Qed.
  Lemma mul_494_sound : rsound OMul mul_494.
  Proof. rule (@mul_494). go. now rewrite Ci_sqr. Qed.
  Lemma mul_498_sound : rsound OMul (mul_498 S).
  Proof. rule (@mul_498). go. unfold Cdiv. cring. Qed.
  Lemma mul_506_sound : rsound OMul mul_506.
  Proof. intros a b e H. unfold mul_506 in H. minv. use_q; minv. go. cring. Qed.
  Lemma mul_512_sound : rsound OMul mul_512.
  Proof. rule (@mul_512). start. contradiction. Qed.
  Lemma mul_516_sound : rsound OMul mul_516.
  Proof. intros a b e H. unfold mul_516 in H. cast_in H; minv. start. contradiction. Qed.
  Lemma mul_528_sound : rsound OMul (mul_528 S).
  Proof. rule (@mul_528). go. unfold Cdiv. cring. Qed.
  Lemma mul_548_sound : rsound OMul (mul_548 S).
  Proof. rule (@mul_548). go. cring. Qed.
  Lemma mul_569_sound : rsound OMul (mul_569 S).
  Proof. rule (@mul_569). go. cring. Qed.
  Lemma mul_580_sound : rsound OMul (mul_580 S).
  Proof. rule (@mul_580). go. cring. Qed.
  Lemma mul_591_sound : rsound OMul mul_591.
  Proof. rule (@mul_591). go. cring. Qed.
  Lemma mul_599_sound : rsound OMul (mul_599 S).
  Proof. rule (@mul_599). go. cring. Qed.
  Lemma mul_614_sound : rsound OMul (mul_614 S).
  Proof. rule (@mul_614). go. cring. Qed.
  Lemma mul_646_sound : rsound OMul (mul_646 S).
  Proof. rule (@mul_646). go. cring. Qed.
  Lemma mul_661_sound : rsound OMul (mul_661 S).
  Proof. rule (@mul_661). go. cring. Qed.
  Lemma mul_706_sound : rsound OMul (mul_706 S).
  Proof. rule (@mul_706). go. cring. Qed.

  (* 536 is never reached: 528 accepts whatever it accepts *)
  Lemma mul_536_dead a b e : runs (mul_528 S a b) None -> ~ runs (mul_536 S a b) (Some e).
  Proof.
    unfold mul_528, mul_536. intros H1 H2.
    destruct (rcast (PBin OMul PAny pDiv) (EMul a b)) as [c|] eqn:E.
    - pose proof (proj1 (rcast_sound _ _ _ E)) as F. unfold pDiv in F. fits_inv. minv.
    - destruct (rcast (PBin OMul pDiv pDiv) (EMul a b)) as [c|] eqn:E'; [|minv].
      assert (F : rcast pDiv a <> None /\ rcast pDiv b <> None).
      { cbn [rcast] in E'. change (binop_eqb OMul OMul) with true in E'. cbn iota in E'.
        destruct (rcast pDiv a), (rcast pDiv b); split; discriminate. }
      destruct F as [_ F]. cbn [rcast] in E. change (binop_eqb OMul OMul) with true in E. cbn iota in E.
      destruct (rcast pDiv b); [discriminate|congruence].
  Qed.

  Lemma mul_626_sound : rsound OMul (mul_626 S).
  Proof.
    intros a b e H. unfold mul_626 in H. cast_in H; minv. use_q; minv; use_s; [go; cring|].
    use_q; minv; use_s. go. cring.
  Qed.
  Lemma eq_strict_iff a b : eq_strict a b = true -> forall rho v, ev a rho v <-> ev b rho v.
  Proof. intros. now apply (eq_strict_ev toR toR_eqb). Qed.
  Lemma mul_676_sound : rsound OMul (mul_676 S).
  Proof.
    intros a b e H. unfold mul_676 in H. cast_in H; minv. use_q; minv; use_s.
    match goal with K : eq_strict _ _ = true |- _ => pose proof (eq_strict_iff _ _ K) end.
    go. cring.
  Qed.
  Lemma mul_692_sound : rsound OMul (mul_692 S).
  Proof.
    intros a b e H. unfold mul_692 in H. cast_in H; minv. use_q; minv; use_s.
    match goal with K : eq_strict _ _ = true |- _ => pose proof (eq_strict_iff _ _ K) end.
    go. cring.
  Qed.
  Lemma mul_723_sound prefer : rsound OMul (mul_723 S prefer).
  Proof. intros a b e H. unfold mul_723 in H. cast_in H; minv. dif H E. use_s. go. cring. Qed.

  Ltac sop H Hacc := eapply scan_or_push_sound; [| |exact H|exact Hacc]; cbv beta.

  Lemma mul_collect_sound rho acc x acc' p w :
    runs (mul_collect S acc x) acc' -> evs OMul acc rho p -> ev x rho w -> evs OMul acc' rho (cop OMul p w).
  Proof.
    intros H Hacc Hx. unfold mul_collect in H.
    cast_in H.
    { pose proof Hx as Hx'. cast_ev Hx. ev_inv Hx. sop H Hacc.
      - intros u u' r Hu Hr. destruct u; minv. ev_inv Hr. simpl. lits. reflexivity.
      - intros e' He. minv. exact Hx'. }
    cast_in H.
    { cast_ev Hx. ev_inv Hx. sop H Hacc.
      - intros u u' r Hu Hr. unfold mul_collect_img in Hu. cast_in Hu; minv. use_s.
        cast_ev Hr. ev_inv Hr. sat. eapply ev_eq; [evg|]. cring.
      - intros e' He. minv. eapply ev_eq; [evg|]. cring. }
    cast_in H.
    { cast_ev Hx. ev_inv Hx. sop H Hacc.
      - intros u u' r Hu Hr. unfold mul_collect_img in Hu. cast_in Hu; minv. use_s.
        cast_ev Hr. ev_inv Hr. sat. eapply ev_eq; [evg|]. cring.
      - intros e' He. minv. eapply ev_eq; [evg|]. cring. }
    cast_in H.
    { cast_ev Hx. ev_inv Hx. sop H Hacc.
      - intros u u' r Hu Hr. unfold mul_collect_exp in Hu. cast_in Hu; minv. use_q; minv. use_s.
        cast_ev Hr. ev_inv Hr. sat. eapply ev_eq; [evg|]. cring.
      - intros e' He. minv. eapply ev_eq; [evg|]. cring. }
    sop H Hacc.
    - intros u u' r Hu Hr. unfold mul_collect_any in Hu. cast_in Hu; minv. use_q; minv. use_s.
      cast_ev Hr. ev_inv Hr. sat. eapply ev_eq; [evg|]. cring.
    - intros e' He. minv. eapply ev_eq; [evg|]. cring.
  Qed.

  Lemma strip_exp_ev e rho v : ev e rho v -> ev (strip_exp e) rho v.
  Proof.
    intros H. unfold strip_exp. destruct (rcast pExpReal e) eqn:E; auto.
    pose proof (rcast_sound _ _ _ E) as [F Q]. apply (reorders_ev toR) with (1 := Q) in H.
    unfold pExpReal in F. fits_inv. destruct (n_eqb c n1) eqn:En; [|now apply (rcast_ev toR _ _ _ rho v E)].
    apply eqb_Z in En. ev_inv H. rewrite En in H. apply cpow_1_iff in H. now subst.
  Qed.

  Lemma mul_rest_sound a b e : runs (mul_rest S a b) e -> refines (EMul a b) e.
  Proof.
    intros H rho v Hv. unfold mul_rest in H. minv.
    destruct (build OMul _) as [t|] eqn:E; minv; auto.
    apply (build_ev toR _ _ _ _ _ (or_intror eq_refl) E).
    apply evs_map; [intros; now apply strip_coef_ev, strip_exp_ev|].
    eapply foldM_flat; eauto; [now right|]. intros; eapply mul_collect_sound; eauto.
  Qed.

  Fixpoint chain (o : binop) (rs : list (expr -> expr -> rule)) (P : expr -> expr -> Prop) : Prop :=
    match rs with
    | [] => True
    | r :: rs =>
      (forall a b e, P a b -> runs (r a b) (Some e) -> refines (EBin o a b) e)
      /\ chain o rs (fun a b => P a b /\ runs (r a b) None)
    end.
  Lemma chain_sound o def :
    (forall a b e, runs (def a b) e -> refines (EBin o a b) e) ->
    forall rs (P : expr -> expr -> Prop), chain o rs P -> forall a b e, P a b ->
    runs (first_rule rs def a b) e -> refines (EBin o a b) e.
  Proof.
    intros Hd. induction rs as [|r rs IH]; intros P Hc a b e HP H; simpl in *; auto.
    destruct Hc as [Hr1 Hc]. minv. destruct y as [e1|]; minv; [eauto|]. eapply IH; eauto. simpl. auto.
  Qed.

  Lemma visit_mul_sound prefer a b e : runs (visit_mul S prefer a b) e -> refines (EMul a b) e.
  Proof.
    unfold visit_mul. apply operands_sound; [discriminate|]. clear a b e.
    assert (C : chain OMul (mul_rules S prefer) (fun _ _ => True)).
    { unfold mul_rules. cbn [chain]. repeat split;
      match goal with
      | |- forall a b e, _ -> runs (mul_536 _ a b) _ -> _ =>
        intros a b e C H; exfalso; eapply mul_536_dead; [|exact H]; tauto
      | _ => intros a b e _; revert a b e
      end.
      - apply mul_478_sound.
      - apply mul_488_sound.
      - apply mul_494_sound.
      - apply mul_498_sound.
      - apply mul_506_sound.
      - apply mul_512_sound.
      - apply mul_516_sound.
      - apply mul_528_sound.
      - apply mul_548_sound.
      - apply mul_548_sound.
      - apply mul_569_sound.
      - apply mul_580_sound.
      - apply mul_591_sound.
      - apply mul_599_sound.
      - apply mul_614_sound.
      - apply mul_626_sound.
      - apply mul_646_sound.
      - apply mul_661_sound.
      - apply mul_676_sound.
      - apply mul_692_sound.
      - apply mul_706_sound.
      - apply mul_723_sound. }
    intros a b e. eapply chain_sound; [apply mul_rest_sound|exact C|exact Logic.I].
  Qed.

  (** *** Divide *)
  Lemma div_877_sound : rsound ODiv div_877.
  Proof.
    rule (@div_877). go. rewrite (ex_div N toR HE).
    - apply RtoC_div. intros E. apply V1. now rewrite E.
    - intros E. apply V1. now rewrite E.
  Qed.

  Lemma clog_ratio b p q u w : clog b p u -> clog b q w -> w <> RtoC 0 -> clog q p (Cdiv u w).
  Proof.
    intros (x & y & -> & -> & Hx & Hx1 & Hy & ->) (x' & y' & E & -> & _ & _ & Hy' & ->) Hw.
    apply RtoC_inj in E. subst x'. pose proof (ln_neq_0' x Hx Hx1) as Hl.
    assert (Hy1 : y' <> 1).
    { intros ->. apply Hw. rewrite ln_1. f_equal. field. assumption. }
    exists y', y. repeat split; auto.
    pose proof (ln_neq_0' y' Hy' Hy1) as Hl'.
    assert (Hq : ln y' / ln x <> 0).
    { intros E. apply Hw. now rewrite E. }
    rewrite <- RtoC_div by assumption. f_equal. field. auto.
  Qed.

  Lemma div_884_sound : rsound ODiv div_884.
  Proof.
    rule (@div_884). go; [eapply clog_ratio; eassumption|reflexivity].
  Qed.

  Lemma factors_ev e rho v : ev e rho v -> evs OMul (factors e) rho v.
  Proof.
    intros H. unfold factors. destruct (rcast pMul e) as [r|] eqn:E; [|now apply evs_one].
    pose proof (rcast_sound _ _ _ E) as [F Q]. apply (reorders_ev toR) with (1 := Q) in H.
    unfold pMul in F. fits_inv. apply (flatten_ev toR); auto. now right.
  Qed.

  Lemma split_div_ev l rho v : evs OMul l rho v ->
    exists p q, evs OMul (fst (split_div l)) rho p /\ evs OMul (snd (split_div l)) rho q /\ q <> RtoC 0 /\ v = Cdiv p q.
  Proof.
    unfold split_div. simpl. revert v. induction l as [|e l IH]; intros v H; simpl.
    - apply evs_nil in H. exists (RtoC 1), (RtoC 1). rewrite !evs_nil. repeat split; auto using C1_neq_0.
      subst. simpl. field. apply C1_neq_0.
    - apply evs_cons in H. destruct H as (u & w & Hu & Hw & ->).
      destruct (IH _ Hw) as (p & q & Hp & Hq & Hn & ->).
      assert (D : (exists n d, e = EDiv n d) \/ (match e with EBin ODiv n _ => n | _ => e end) = e /\ (match e with EBin ODiv _ d => [d] | _ => [] end) = []).
      { destruct e; auto. destruct o; eauto. }
      destruct D as [(n & d & ->)|[-> ->]].
      + ev_inv Hu. exists (Cmult v p), (Cmult v0 q). rewrite evs_cons. simpl. rewrite evs_cons.
        repeat split; eauto 6 using Cmult_neq_0'. simpl. field. auto.
      + exists (Cmult u p), q. rewrite evs_cons. simpl. repeat split; eauto 6. field. auto.
  Qed.

  Section DivRest.
    Variable rho : env.
    Variable origs : list expr.
    (* a factor of the dividend, a literal, or different from 0 *)
    Definition dinv (e : expr) : Prop :=
      In e origs \/ (exists c, e = EReal c) \/ (forall w, ev e rho w -> w <> RtoC 0).

    Lemma dinv_val e w : ev e rho w -> w <> RtoC 0 -> dinv e.
    Proof. intros H Hw. right. right. intros w' H'. now rewrite (ev_fun toR _ _ _ _ H' H). Qed.

    Lemma scan_dinv f w :
      (forall u u' p, runs (f u) (Some u') -> ev u rho p -> dinv u -> ev u' rho (Cmult p w) /\ dinv u') ->
      forall l l' v, runs (scan f l) (Some l') -> evs OMul l rho v -> List.Forall dinv l ->
      evs OMul l' rho (Cmult v w) /\ List.Forall dinv l'.
    Proof.
      intros Hf. induction l as [|u l IH]; intros l' v H; simpl in H; minv.
      intros Hv HF. apply evs_cons in Hv. destruct Hv as (p & q & H1 & H2 & ->). inversion HF; subst.
      destruct y as [u'|]; minv.
      - destruct (Hf _ _ _ Hr H1 H4) as [E1 E2]. split; [|now constructor].
        apply evs_cons. exists (Cmult p w), q. repeat split; auto. cring.
      - destruct y as [l''|]; simpl in H; minv. destruct (IH _ _ Hr0 H2 H5) as [E1 E2].
        split; [|now constructor]. apply evs_cons. exists p, (Cmult q w). repeat split; auto. cring.
    Qed.

    Lemma scan_or_push_dinv f d w l l' v :
      (forall u u' p, runs (f u) (Some u') -> ev u rho p -> dinv u -> ev u' rho (Cmult p w) /\ dinv u') ->
      (forall e, runs d e -> ev e rho w /\ dinv e) ->
      runs (scan_or_push f l d) l' -> evs OMul l rho v -> List.Forall dinv l ->
      evs OMul l' rho (Cmult v w) /\ List.Forall dinv l'.
    Proof.
      intros Hf Hd H Hl HF. unfold scan_or_push in H. minv. destruct y as [l''|]; minv.
      - eapply scan_dinv; eauto.
      - destruct (Hd _ Hr0) as [E1 E2]. split.
        + apply evs_app. exists v, w. repeat split; auto. now apply evs_one.
        + apply Forall_app. split; auto.
    Qed.

    Ltac dsop H Hacc HF := eapply scan_or_push_dinv; [| |exact H|exact Hacc|exact HF]; cbv beta.

    Lemma RtoC_IZR_m1 : RtoC (IZR (-1)) = RtoC (-1).
    Proof. reflexivity. Qed.
    Lemma cpow_m1 b : b <> RtoC 0 -> cpow b (RtoC (-1)) (Cinv b).
    Proof. intros H. now apply cpow_m1_iff. Qed.

    Lemma quot_step t b m n u w :
      (forall q, cpow b (Cminus m n) q -> ev t rho q) ->
      b = b -> cpow b m u -> cpow b n w -> b <> RtoC 0 ->
      ev t rho (Cmult u (Cinv w)) /\ dinv t.
    Proof.
      intros Ht _ Hu Hw Hb. pose proof (cpow_minus _ _ _ _ _ Hu Hw Hb) as K. unfold Cdiv in K.
      split; auto. eapply dinv_val; [exact (Ht _ K)|].
      apply Cmult_neq_0'; [now apply (cpow_neq_0 _ _ _ Hu)|]. apply Cinv_neq_0. now apply (cpow_neq_0 _ _ _ Hw).
    Qed.

    Lemma inv_step t b n w :
      (forall q, cpow b (Cmult (RtoC (-1)) n) q -> ev t rho q) ->
      cpow b n w -> b <> RtoC 0 -> ev t rho (Cinv w) /\ dinv t.
    Proof.
      intros Ht Hw Hb. pose proof (cpow_opp _ _ _ Hb Hw) as K.
      replace (Copp n) with (Cmult (RtoC (-1)) n) in K by cring.
      split; auto. eapply dinv_val; [exact (Ht _ K)|]. apply Cinv_neq_0. now apply (cpow_neq_0 _ _ _ Hw).
    Qed.

    Ltac varq :=
      match goal with
      | Q : forall rho v, ev (EVar ?a) rho v <-> ev (EVar ?b) rho v |- _ =>
        assert (Evar : RtoC (rho a) = RtoC (rho b)) by (apply (proj1 (Q rho _)); reflexivity)
      end.

    Lemma div_collect_sound acc x acc' p w :
      runs (div_collect S acc x) acc' -> evs OMul acc rho p -> List.Forall dinv acc ->
      ev x rho w -> w <> RtoC 0 ->
      evs OMul acc' rho (Cmult p (Cinv w)) /\ List.Forall dinv acc'.
    Proof.
      intros H Hacc HF Hx Hw. unfold div_collect in H.
      cast_in H.
      { cast_ev Hx. ev_inv Hx. assert (Hc : toR c0 <> 0) by (intros E; apply Hw; now rewrite E).
        dsop H Hacc HF.
        - intros u u' r Hu Hr _. destruct u; minv. ev_inv Hr. split; [|right; left; eauto].
          simpl. rewrite (ex_div N toR HE) by assumption. rewrite RtoC_div by assumption. reflexivity.
        - intros e' He. minv. split; [|right; left; eauto].
          simpl. rewrite (ex_div N toR HE) by assumption. unfold n1. rewrite toR_Z.
          rewrite RtoC_div by assumption. unfold Cdiv. now rewrite Cmult_1_l. }
      cast_in H.
      { cast_ev Hx. ev_inv Hx. dsop H Hacc HF.
        - intros u u' r Hu Hr _. destruct u; minv. ev_inv Hr. split; [|right; left; unfold real; eauto].
          eapply ev_eq; [evg|]. rewrite Cinv_r; auto.
        - intros e' He. minv. assert (K : ev (EExp EImag (real (-1))) rho (Cinv Ci)).
          { evg. now apply cpow_m1. }
          split; auto. eapply dinv_val; eauto. now apply Cinv_neq_0. }
      cast_in H.
      { cast_ev Hx. ev_inv Hx. dsop H Hacc HF.
        - intros u u' r Hu Hr _. unfold div_by_var in Hu. cast_in Hu.
          + minv. use_q; minv. use_s. varq. cast_ev Hr. ev_inv Hr. rewrite Evar in Hr.
            eapply quot_step; [|reflexivity|eassumption|apply cpow_1|assumption].
            intros q Hq. evg.
          + cast_in Hu; minv. use_q; minv. varq. cast_ev Hr. ev_inv Hr. rewrite Evar.
            split; [|right; left; unfold real; eauto].
            eapply ev_eq; [evg|]. now rewrite Cinv_r.
        - intros e' He. minv. assert (K : ev (EExp (EVar x0) (real (-1))) rho (Cinv (rho x0))).
          { evg. now apply cpow_m1. }
          split; auto. eapply dinv_val; eauto. now apply Cinv_neq_0. }
      cast_in H.
      { cast_ev Hx. ev_inv Hx. assert (Hb : RtoC (rho x0) <> RtoC 0) by (eapply cpow_value_neq_0_base; eauto).
        dsop H Hacc HF.
        - intros u u' r Hu Hr _. unfold div_by_varexp in Hu. cast_in Hu.
          + minv. use_q; minv. use_s. varq. cast_ev Hr. ev_inv Hr. rewrite Evar in Hr.
            eapply quot_step; [|reflexivity|eassumption|eassumption|assumption].
            intros q Hq. evg.
          + cast_in Hu; minv. unfold m_eq in Hr0. cbn in Hr0. injection Hr0 as <-. minv.
        - intros e' He. minv. eapply inv_step; [|eassumption|assumption].
          intros q Hq. evg. }
      cast_in H.
      { cast_ev Hx. ev_inv Hx. assert (Hb : v <> RtoC 0) by (eapply cpow_value_neq_0_base; eauto).
        dsop H Hacc HF.
        - intros u u' r Hu Hr _. unfold div_by_exp in Hu. cast_in Hu.
          + minv. use_q; minv. use_s. cast_ev Hr. ev_inv Hr. sat.
            eapply quot_step; [|reflexivity|eassumption|eassumption|assumption].
            intros q Hq. evg.
          + minv. use_q; minv. use_s. sat.
            eapply quot_step; [|reflexivity|apply cpow_1|eassumption|assumption].
            intros q Hq. evg.
        - intros e' He. use_s. eapply inv_step; [|eassumption|assumption].
          intros q Hq. evg. }
      dsop H Hacc HF.
      - intros u u' r Hu Hr _. unfold div_by_any in Hu. cast_in Hu.
        + minv. use_q; minv. use_s. cast_ev Hr. ev_inv Hr. sat.
          eapply quot_step; [|reflexivity|eassumption|apply cpow_1|assumption].
          intros q Hq. evg.
        + minv. use_q; minv. sat. split; [|right; left; unfold real; eauto].
          eapply ev_eq; [evg|]. now rewrite Cinv_r.
      - intros e' He. minv. assert (K : ev (EExp x (real (-1))) rho (Cinv w)).
        { evg. now apply cpow_m1. }
        split; auto. eapply dinv_val; eauto. now apply Cinv_neq_0.
    Qed.

    Lemma div_fold_sound : forall l acc acc' p w,
      runs (foldM (div_collect S) acc l) acc' -> evs OMul acc rho p -> List.Forall dinv acc ->
      evs OMul l rho w -> w <> RtoC 0 ->
      evs OMul acc' rho (Cdiv p w) /\ List.Forall dinv acc'.
    Proof.
      induction l as [|x l IH]; intros acc acc' p w H Hacc HF Hl Hw; simpl in H; minv.
      - apply evs_nil in Hl. subst. split; auto. eapply eq_ind; [exact Hacc|]. simpl. field. apply C1_neq_0.
      - apply evs_cons in Hl. destruct Hl as (u & q & Hx & Hl & ->). simpl in Hw.
        assert (Hu : u <> RtoC 0) by (intros ->; apply Hw; ring).
        assert (Hq : q <> RtoC 0) by (intros ->; apply Hw; ring).
        destruct (div_collect_sound _ _ _ _ _ Hr Hacc HF Hx Hu) as [E1 E2].
        destruct (IH _ _ _ _ H E1 E2 Hl Hq) as [E3 E4]. split; auto.
        eapply eq_ind; [exact E3|]. simpl. field. auto.
    Qed.

    Lemma Cinv_twice v : v <> RtoC 0 -> v = Cinv (Cinv v).
    Proof.
      intros H. pose proof (Cinv_neq_0 _ H) as H'.
      rewrite <- (Cmult_1_l (Cinv (Cinv v))), <- (Cinv_r v H), <- Cmult_assoc, Cinv_r by assumption. ring.
    Qed.

    Lemma div_place_sound e v : ev e rho v -> dinv e -> div_place_bad origs e = [] ->
      match div_place e with
      | None => v = RtoC 1
      | Some (inl t) => ev t rho v
      | Some (inr t) => exists w, ev t rho w /\ w <> RtoC 0 /\ v = Cinv w
      end.
    Proof.
      intros Hv HI Hb. unfold div_place.
      destruct (rcast PReal e) as [r|] eqn:E1.
      { pose proof (rcast_sound _ _ _ E1) as [F Q]. inversion F; subst. cbn [as_real].
        destruct (n_eqb c n1) eqn:Ec; auto. apply eqb_Z in Ec.
        apply (reorders_ev toR) with (1 := Q) in Hv. simpl in Hv. now rewrite Hv, Ec. }
      cbn [as_real]. destruct (rcast PVar e); auto. destruct (rcast PImag e); auto.
      destruct (rcast pExpReal e) as [r|] eqn:E2.
      { pose proof (rcast_sound _ _ _ E2) as [F Q]. unfold pExpReal in F. fits_inv. cbn [as_binreal].
        destruct (n_ltb c n0) eqn:Ec; auto. apply ltb_Z in Ec.
        apply (reorders_ev toR) with (1 := Q) in Hv. ev_inv Hv.
        assert (Hb0 : v0 <> RtoC 0).
        { intros ->. apply cpow_base0_inv in Hv. destruct Hv as (r & E & Hr & _). apply RtoC_inj in E. lra. }
        pose proof (cpow_neq_0 _ _ _ Hv Hb0) as Hn. exists (Cinv v). repeat split.
        - evg. lits. replace (Cmult (RtoC (toR c)) (RtoC (-1))) with (Copp (RtoC (toR c))) by cring.
          now apply cpow_opp.
        - now apply Cinv_neq_0.
        - now apply Cinv_twice. }
      cbn [as_binreal]. unfold div_place_bad in Hb.
      destruct (rcast (PBin OExp PAny pMulRE) e) as [r|] eqn:E3; [|exact Hv].
      pose proof (rcast_sound _ _ _ E3) as [F Q]. unfold pMulRE in F. fits_inv. cbn [as_binmulre] in *.
      destruct (n_ltb c n0) eqn:Ec; auto.
      destruct (n_eqb c nm1) eqn:Em; [|discriminate]. apply eqb_Z in Em.
      destruct (existsb _ origs) eqn:Ex; [discriminate|].
      assert (Hn : v <> RtoC 0).
      { destruct HI as [Hin|[[c' ->]|Hn]].
        - rewrite <- not_true_iff_false, existsb_exists in Ex. exfalso. apply Ex. exists e. split; auto.
          now apply (eq_strict_refl e rho v).
        - discriminate.
        - now apply Hn. }
      apply (reorders_ev toR) with (1 := Q) in Hv. ev_inv Hv.
      assert (Hb0 : v0 <> RtoC 0) by (eapply cpow_value_neq_0_base; eauto).
      pose proof (cpow_opp _ _ _ Hb0 Hv) as K. rewrite Em in K.
      match type of K with cpow _ (Copp (Cmult _ ?z)) _ => replace (Copp (Cmult (RtoC (-1)) z)) with z in K by cring end.
      exists (Cinv v). repeat split.
      - evg.
      - now apply Cinv_neq_0.
      - now apply Cinv_twice.
    Qed.

    Lemma partition_place_sound l v : evs OMul l rho v -> List.Forall dinv l ->
      flat_map (div_place_bad origs) l = [] ->
      exists p q, evs OMul (fst (partition_place l)) rho p /\ evs OMul (snd (partition_place l)) rho q
                  /\ q <> RtoC 0 /\ v = Cdiv p q.
    Proof.
      revert v. induction l as [|e l IH]; intros v H HF Hb; simpl.
      - apply evs_nil in H. exists (RtoC 1), (RtoC 1). rewrite !evs_nil. repeat split; auto using C1_neq_0.
        subst. simpl. field. apply C1_neq_0.
      - apply evs_cons in H. destruct H as (u & w & Hu & Hw & ->). inversion HF; subst.
        simpl in Hb. apply app_eq_nil in Hb. destruct Hb as [Hb1 Hb2].
        destruct (IH _ Hw H2 Hb2) as (p & q & Hp & Hq & Hn & ->).
        destruct (partition_place l) as [ns ds]. simpl in *.
        pose proof (div_place_sound _ _ Hu H1 Hb1) as K. destruct (div_place e) as [[t|t]|]; simpl.
        + exists (Cmult u p), q. rewrite evs_cons. repeat split; eauto 6. simpl. field. auto.
        + destruct K as (z & Hz & Hz0 & ->). exists p, (Cmult z q). rewrite evs_cons.
          repeat split; eauto 6 using Cmult_neq_0'. simpl. field. auto.
        + subst u. exists p, q. repeat split; auto. simpl. field. auto.
    Qed.
  End DivRest.

  Lemma one_or_build_ev l rho v : evs OMul l rho v ->
    match one_or_build l with Some e => ev e rho v | None => v = RtoC 1 end.
  Proof.
    intros H. unfold one_or_build. destruct l as [|x [|y l]].
    - now apply evs_nil in H.
    - now apply evs_one in H.
    - destruct (build_spec OMul (x :: y :: l)) as (t1 & t2 & E & _); [simpl; lia|]. rewrite E.
      apply (build_ev toR _ _ _ _ _ (or_intror eq_refl) E). exact H.
  Qed.

  Lemma div_rest_sound a b e : runs (div_rest S a b) e -> refines (EDiv a b) e.
  Proof.
    intros H rho v Hv. unfold div_rest in H. ev_inv Hv.
    apply factors_ev in V. apply factors_ev in V0.
    destruct (split_div_ev _ _ _ V) as (p & q & Hp & Hq & Hn & ->).
    destruct (split_div (factors a)) as [result extra]. simpl in Hp, Hq. minv.
    assert (Hd : evs OMul (factors b ++ extra) rho (Cmult v1 q)).
    { apply evs_app. eauto 6. }
    assert (HF : List.Forall (dinv rho result) result) by (apply Forall_forall; intros z Hz; now left).
    assert (Hvq : Cmult v1 q <> RtoC 0) by now apply Cmult_neq_0'.
    destruct (div_fold_sound rho result _ _ _ _ _ Hr Hp HF Hd Hvq) as [E1 E2].
    destruct (partition_place_sound rho result _ _ E1 E2 Hr0) as (n & d & Hn' & Hd' & Hd0 & E).
    destruct (partition_place y) as [ns ds]. simpl in Hn', Hd'.
    apply (evs_map _ strip_exp) in Hn'; [|intros; now apply strip_exp_ev].
    apply (evs_map _ strip_exp) in Hd'; [|intros; now apply strip_exp_ev].
    apply one_or_build_ev in Hn'. apply one_or_build_ev in Hd'.
    assert (Ev : Cdiv (Cdiv p q) v1 = Cdiv n d).
    { rewrite <- E. field. auto. }
    rewrite Ev. destruct (one_or_build (map strip_exp ns)), (one_or_build (map strip_exp ds)); minv; subst.
    - evg.
    - eapply ev_eq; [evg|]. field. apply C1_neq_0.
    - evg.
    - eapply ev_eq; [evg|]. field. apply C1_neq_0.
  Qed.

  Lemma visit_div_sound a b e : runs (visit_div S a b) e -> refines (EDiv a b) e.
  Proof.
    unfold visit_div. apply operands_sound; [discriminate|]. apply first_rule_sound; [|apply div_rest_sound].
    repeat constructor; auto using div_877_sound, div_884_sound.
  Qed.

  (** *** Exponent *)
  Lemma exp_1139_sound : rsound OExp exp_1139.
  Proof.
    intros a b e H. unfold exp_1139 in H. cast_in H; minv. dif H E. apply eqb_Z in E.
    start. rewrite E in Hv. apply cpow_0_iff in Hv. destruct Hv as [_ ->]. evg.
  Qed.
  Lemma exp_1148_sound : rsound OExp exp_1148.
  Proof.
    intros a b e H. unfold exp_1148 in H. cast_in H; minv. dif H E. apply eqb_Z in E.
    start. rewrite E in Hv. apply cpow_base0_inv in Hv. destruct Hv as (r & _ & _ & ->). evg.
  Qed.
  Lemma exp_1156_sound : rsound OExp exp_1156.
  Proof.
    intros a b e H. unfold exp_1156 in H. cast_in H; minv.
    start. simpl. now apply (ex_pow N toR HE).
  Qed.
  Lemma exp_1163_sound : rsound OExp exp_1163.
  Proof.
    intros a b e H. unfold exp_1163 in H. cast_in H; minv. dif H E. apply eqb_Z in E.
    start. rewrite E in Hv. apply cpow_1_iff in Hv. now subst.
  Qed.
  Lemma exp_1171_sound : rsound OExp exp_1171.
  Proof.
    intros a b e H. unfold exp_1171 in H. cast_in H; minv. dif H E. apply eqb_Z in E.
    start. rewrite E in Hv. apply cpow_base1 in Hv. subst. evg.
  Qed.
  Lemma exp_1179_sound : rsound OExp exp_1179.
  Proof.
    intros a b e H. unfold exp_1179 in H. cast_in H; minv.
    start. match type of Hv with cpow _ (RtoC (toR ?c)) _ => assert (K : exists z, toR c = IZR z) end.
    { pose proof (cpow_nz_inv _ _ _ Ci_neq_0 Hv) as [(z & E & _)|(x & r & E & _)].
      - apply RtoC_inj in E. eauto.
      - now apply Ci_not_real in E. }
    destruct K as [z Ez]. rewrite (ex_rem4 N toR HE _ _ Ez) in H. rewrite Ez in Hv. apply cpow_i in Hv.
    destruct (Z.rem z 4) as [|q|q]; minv; [evg|].
    destruct q as [[|[]|]|[|[]|]|]; minv; subst; try (evg; fail).
    simpl. exists Ci. split; auto.
  Qed.
  Lemma exp_1196_sound : rsound OExp exp_1196.
  Proof. intros a b e H. unfold exp_1196 in H. cast_in H; minv. dif H E. Qed.
  Lemma exp_1209_sound : rsound OExp (exp_1209 S).
  Proof.
    intros a b e H. unfold exp_1209 in H. cast_in H; minv. use_s.
    start. apply orb_true_iff in Hr. destruct Hr as [Hi|Hp].
    - unfold int_literal in Hi. match type of Hi with (match ?b with _ => _ end) = true => destruct b; try discriminate end.
      apply is_int_spec in Hi. destruct Hi as [z Ez]. ev_inv V0. evg. rewrite Ez in *.
      eapply cpow_cpow_int; eauto.
    - destruct (evident_pos_spec _ _ _ Hp V1) as (x & -> & Hx). evg. eapply cpow_cpow_pos; eauto.
  Qed.
  Lemma cpow_clog x z q v : clog x z q -> cpow x q v -> v = z.
  Proof.
    intros (r & y & -> & -> & Hx & Hx1 & Hy & ->) H. apply cpow_real_iff in H; auto. subst. f_equal.
    unfold Rpower. replace (ln y / ln r * ln r) with (ln y) by (field; now apply ln_neq_0').
    now apply exp_ln.
  Qed.
  Lemma exp_1219_sound : rsound OExp exp_1219.
  Proof.
    rule (@exp_1219). start. match goal with C : clog _ _ _ |- _ => now rewrite (cpow_clog _ _ _ _ C Hv) end.
  Qed.

  Lemma visit_exp_sound a b e : runs (visit_exp S a b) e -> refines (EExp a b) e.
  Proof.
    unfold visit_exp. apply operands_sound; [discriminate|]. apply first_rule_sound.
    - repeat constructor; auto using exp_1139_sound, exp_1148_sound, exp_1156_sound, exp_1163_sound, exp_1171_sound,
        exp_1179_sound, exp_1196_sound, exp_1209_sound, exp_1219_sound.
    - intros a' b' e' H. minv. now intros rho v.
  Qed.

  (** *** Log *)
  Lemma clog_base b p u : clog b p u -> exists x, b = RtoC x /\ 0 < x /\ x <> 1.
  Proof. intros (x & y & -> & _ & H1 & H2 & _). eauto. Qed.
  Lemma clog_arg b p u : clog b p u -> exists x, p = RtoC x /\ 0 < x.
  Proof. intros (x & y & _ & -> & _ & _ & H1 & _). eauto. Qed.

  Lemma log_1279_sound : rsound OLog log_1279.
  Proof.
    intros a b e H. unfold log_1279 in H. cast_in H; minv. dif H E. start.
    destruct (clog_base _ _ _ Hv) as (x & Ex & H1 & H2). apply RtoC_inj in Ex.
    apply orb_true_iff in E. destruct E as [E|E]; [apply leb_Z in E|apply eqb_Z in E]; exfalso; lra.
  Qed.
  Lemma log_1285_sound : rsound OLog log_1285.
  Proof.
    intros a b e H. unfold log_1285 in H. cast_in H; minv. dif H E.
    - start. destruct (clog_arg _ _ _ Hv) as (x & Ex & H1). apply RtoC_inj in Ex.
      apply leb_Z in E. exfalso. lra.
    - dif H E'. apply eqb_Z in E'. start. rewrite E' in Hv.
      destruct Hv as (x & y & -> & Ey & Hx & Hx1 & Hy & ->). apply RtoC_inj in Ey. subst y.
      rewrite ln_1. eapply ev_eq; [evg|]. f_equal. field. now apply ln_neq_0'.
  Qed.
  Lemma log_1297_sound : rsound OLog log_1297.
  Proof.
    intros a b e H. unfold log_1297 in H. cast_in H; minv. start.
    match goal with K : (_ && _)%bool = true |- _ => apply andb_prop in K; destruct K as [K1 K2] end.
    destruct Hv as (x & y1 & Ex & Ey & Hx & Hx1 & Hy & ->). apply RtoC_inj in Ex, Ey.
    subst. assert (L2 : ln 2 <> 0) by (apply ln_neq_0'; lra). pose proof (ln_neq_0' _ Hx Hx1) as Lx.
    simpl. lits. rewrite (ex_div N toR HE); rewrite ?(ex_log2 N toR HE) by assumption.
    - lits. rewrite <- !RtoC_mult. f_equal. field. auto.
    - apply Rmult_integral_contrapositive_currified; auto. now apply Rinv_neq_0_compat.
  Qed.
  Lemma log_1305_sound : rsound OLog log_1305.
  Proof.
    intros a b e H. unfold log_1305 in H. cast_in H; minv. dif H E. start.
    destruct (clog_arg _ _ _ Hv) as (x & Ex & H1). apply RtoC_inj in Ex. apply ltb_Z in E. exfalso. lra.
  Qed.
  Lemma log_1312_sound : rsound OLog log_1312.
  Proof.
    intros a b e H. unfold log_1312 in H. minv. use_q; minv. start.
    destruct Hv as (x & y1 & -> & Ey & Hx & Hx1 & Hy & ->). apply RtoC_inj in Ey. subst.
    eapply ev_eq; [evg|]. f_equal. field. now apply ln_neq_0'.
  Qed.

  Lemma clog_pow_pos x y n u v : 0 < y -> cpow (RtoC y) n u -> clog x u v ->
    exists w, clog x (RtoC y) w /\ v = Cmult n w.
  Proof.
    intros Hy Hp (r & z & -> & -> & Hr & Hr1 & Hz & ->).
    destruct (cpow_exponent_real _ _ _ Hp) as [k ->]. apply cpow_real_iff in Hp; auto. apply RtoC_inj in Hp.
    exists (RtoC (ln y / ln r)). split.
    - exists r, y. auto 7.
    - rewrite <- RtoC_mult. f_equal. subst z. unfold Rpower. rewrite ln_exp. field. now apply ln_neq_0'.
  Qed.

  Lemma powerRZ_odd_neg y z : y < 0 -> Z.even z = false -> powerRZ y z < 0.
  Proof.
    intros Hy Hz. rewrite <- Z.negb_odd in Hz. apply negb_false_iff, Z.odd_spec in Hz. destruct Hz as [k ->].
    replace (2 * k + 1)%Z with (k + k + 1)%Z by lia. rewrite !powerRZ_add by lra. rewrite powerRZ_1.
    assert (Hk : powerRZ y k <> 0) by (apply powerRZ_NOR; lra). apply Rlt_0_sqr in Hk. unfold Rsqr in Hk. nra.
  Qed.

  Lemma log_1319_sound : rsound OLog (log_1319 S).
  Proof.
    intros a b e H. unfold log_1319 in H. cast_in H; minv. use_s. start.
    assert (K : exists t, v2 = RtoC t /\ 0 < t).
    { apply orb_true_iff in Hr. destruct Hr as [Hp|Hp].
      - eapply evident_pos_spec; eauto.
      - apply andb_prop in Hp. destruct Hp as [Hp1 Hp2].
        destruct (imag_free_real _ _ _ Hp2 V1) as [t ->]. exists t. split; auto.
        unfold not_even_literal in Hp1.
        match type of Hp1 with (match ?b with _ => _ end) = true => destruct b; try discriminate end.
        apply negb_true_iff in Hp1. ev_inv V2.
        destruct (clog_arg _ _ _ Hv) as (z & -> & Hz).
        destruct (Rtotal_order t 0) as [Hy|[->|Hy]]; auto; exfalso.
        + assert (Hy0 : RtoC t <> RtoC 0) by (apply RtoC_neq; lra).
          destruct (cpow_nz_inv _ _ _ Hy0 V0) as [(k & E & Ez)|(y' & r & E & H1 & _)].
          * apply RtoC_inj in E. pose proof (not_even_spec _ _ Hp1 E) as Hk.
            rewrite cpowz_R in Ez by lra. apply RtoC_inj in Ez.
            pose proof (powerRZ_odd_neg _ _ Hy Hk). lra.
          * apply RtoC_inj in E. lra.
        + apply cpow_base0_inv in V0. destruct V0 as (r & _ & _ & E). apply RtoC_inj in E. lra. }
    destruct K as (t & -> & Hy).
    match goal with K : cpow _ _ _ |- _ => destruct (clog_pow_pos _ _ _ _ _ Hy K Hv) as (w & Hw & ->) end.
    evg. exact Hw.
  Qed.

  Lemma visit_log_sound a b e : runs (visit_log S a b) e -> refines (ELog a b) e.
  Proof.
    unfold visit_log. apply operands_sound; [discriminate|]. apply first_rule_sound.
    - repeat constructor; auto using log_1279_sound, log_1285_sound, log_1297_sound, log_1305_sound, log_1312_sound,
        log_1319_sound.
    - intros a' b' e' H. minv. now intros rho v.
  Qed.

  (** *** Unary nodes *)
  Lemma visit_neg_sound a e : runs (visit_neg S a) e -> refines (ENeg a) e.
  Proof. unfold visit_neg. intros H. minv. use_s. intros rho v Hv. ev_inv Hv. eapply ev_eq; [evg|]. cring. Qed.

  Lemma visit_sine_sound a e : runs (visit_sine S a) e -> refines (ESine a) e.
  Proof. unfold visit_sine. intros H. minv. Qed.

  Lemma Cmod_real x y : Cmod (x, y) = sqrt (x * x + y * y).
  Proof. unfold Cmod. simpl. f_equal. ring. Qed.

  Lemma sqrt_pow t : 0 <= t -> cpow (RtoC t) (RtoC (/ 2)) (RtoC (sqrt t)).
  Proof.
    intros [H|<-].
    - apply cpow_real_iff; auto. f_equal. symmetry. now apply Rpower_sqrt.
    - rewrite sqrt_0. apply cpow_base0_intro. lra.
  Qed.

  Definition magsound (r : expr -> expr -> rule) : Prop :=
    forall orig a e, refines orig a -> runs (r orig a) (Some e) -> refines (EMag orig) e.

  Lemma mag_step orig a rho v : refines orig a -> ev (EMag orig) rho v -> exists w, ev a rho w /\ v = RtoC (Cmod w).
  Proof. intros H Hv. ev_inv Hv. eauto. Qed.

  Lemma mag_sqrt u v rho (e f : expr) :
    ev e rho (RtoC u) -> ev f rho (Cmult (RtoC v) (RtoC v)) ->
    ev (EExp (EAdd (EExp e (real 2)) f) half) rho (RtoC (Cmod (Cplus (RtoC u) (Cmult (RtoC v) Ci)))).
  Proof.
    intros He Hf. replace (Cplus (RtoC u) (Cmult (RtoC v) Ci)) with (u, v).
    2:{ unfold Cplus, Cmult, RtoC, Ci. simpl. f_equal; ring. }
    rewrite Cmod_real. unfold half. evg. rewrite (ex_half N toR HE).
    rewrite <- !RtoC_mult, <- RtoC_plus. apply sqrt_pow. nra.
  Qed.

  Lemma Cmod_Ci : Cmod Ci = 1.
  Proof. unfold Ci. rewrite Cmod_real. replace (0 * 0 + 1 * 1) with 1 by ring. apply sqrt_1. Qed.

  Lemma mag_1446_sound : magsound mag_1446.
  Proof.
    intros orig a e Ho H. unfold mag_1446 in H. cast_in H; minv.
    intros rho v Hv. destruct (mag_step _ _ _ _ Ho Hv) as (w & Hw & ->). cast_ev Hw. ev_inv Hw. simpl.
    rewrite Cmod_R. match goal with |- context [n_leb n0 ?c] => destruct (n_leb n0 c) eqn:E end.
    - apply (ex_leb N toR HE) in E. unfold n0 in E. rewrite toR_Z in E. now rewrite Rabs_pos_eq.
    - rewrite (ex_opp N toR HE). rewrite Rabs_left1; auto.
      match type of E with n_leb _ ?c = _ => destruct (Rle_dec (toR c) 0) as [|K]; auto end.
      rewrite <- not_true_iff_false, (ex_leb N toR HE) in E. unfold n0 in E. rewrite toR_Z in E. lra.
  Qed.
  Lemma mag_1450_sound : magsound mag_1450.
  Proof.
    intros orig a e Ho H. unfold mag_1450 in H. cast_in H; minv.
    intros rho v Hv. destruct (mag_step _ _ _ _ Ho Hv) as (w & Hw & ->). cast_ev Hw. ev_inv Hw.
    eapply ev_eq; [evg|]. now rewrite Cmod_Ci.
  Qed.
  Lemma mag_1453_sound : magsound (mag_1453 S).
  Proof.
    intros orig a e Ho H. unfold mag_1453 in H. cast_in H; minv. use_s.
    intros rho v Hv. destruct (mag_step _ _ _ _ Ho Hv) as (w & Hw & ->). cast_ev Hw. ev_inv Hw.
    match goal with R : refines _ ?r |- ev ?r _ _ => apply R end. simpl. eexists. split; [eassumption|].
    rewrite Cmod_mult, Cmod_Ci. f_equal. ring.
  Qed.
  Lemma mag_1456_sound : magsound (mag_1456 S).
  Proof.
    intros orig a e Ho H. unfold mag_1456 in H. cast_in H; minv. use_s.
    intros rho v Hv. destruct (mag_step _ _ _ _ Ho Hv) as (w & Hw & ->). cast_ev Hw. ev_inv Hw.
    match goal with K : imag_free ?t = true, V : ev ?t _ _ |- _ => destruct (imag_free_real _ _ _ K V) as [u ->] end.
    match goal with R : refines _ ?r |- ev ?r _ _ => apply R end.
    replace Ci with (Cmult (RtoC 1) Ci) by ring. apply mag_sqrt; auto.
    eapply ev_eq; [evg|]. ring.
  Qed.
  Lemma mag_1462_sound : magsound (mag_1462 S).
  Proof.
    intros orig a e Ho H. unfold mag_1462 in H. cast_in H; minv. use_s.
    intros rho v Hv. destruct (mag_step _ _ _ _ Ho Hv) as (w & Hw & ->). cast_ev Hw. ev_inv Hw.
    match goal with K : (_ && _)%bool = true |- _ => apply andb_prop in K; destruct K as [K1 K2] end.
    match goal with V : ev ?t _ _ |- _ => destruct (imag_free_real _ _ _ K1 V) as [u ->] end.
    match goal with V : ev ?t _ _ |- _ => destruct (imag_free_real _ _ _ K2 V) as [u' ->] end.
    match goal with R : refines _ ?r |- ev ?r _ _ => apply R end.
    apply mag_sqrt; auto. evg.
  Qed.
  Lemma mag_1468_sound : magsound (mag_1468 S).
  Proof.
    intros orig a e Ho H. unfold mag_1468 in H. cast_in H; minv.
    intros rho v Hv. destruct (mag_step _ _ _ _ Ho Hv) as (w & Hw & ->). cast_ev Hw. destruct Hw.
  Qed.

  Lemma first_mag rs def orig a e :
    List.Forall magsound rs -> refines orig a ->
    (forall e, runs (def orig a) e -> refines (EMag orig) e) ->
    runs (first_rule rs def orig a) e -> refines (EMag orig) e.
  Proof.
    intros Hrs Ho Hd. induction Hrs as [|r rs Hr _ IH]; simpl; auto.
    intros H. minv. destruct y as [e1|]; minv; auto. now apply (Hr _ _ _ Ho).
  Qed.

  Lemma visit_mag_sound a e : runs (visit_mag S a) e -> refines (EMag a) e.
  Proof.
    unfold visit_mag. intros H. minv. use_s. eapply first_mag; [|exact Hr| |exact H].
    - repeat constructor; auto using mag_1446_sound, mag_1450_sound, mag_1453_sound, mag_1456_sound, mag_1462_sound,
        mag_1468_sound.
    - intros e' H'. cbv beta in H'. minv. intros rho v Hv. exact Hv.
  Qed.

  (** *** Derivative and Integral *)
  Variable D : expr -> expr -> M expr.
  Variable I : expr -> expr -> M (option expr).
  Hypothesis HSvar : forall x r, runs (S (EVar x)) r -> r = EVar x.
  Hypothesis HD : forall e x d, smooth e = true -> safe_powers e = true ->
    runs (D e (EVar x)) d -> refines (EDeriv e (EVar x)) d.

  Lemma refines_deriv a a' x : refines a a' -> refines (EDeriv a (EVar x)) (EDeriv a' (EVar x)).
  Proof.
    intros H rho v (f & d & H1 & H2 & ->). exists f, d. split; [|split; auto].
    eapply filter_imp; [|exact H1]. cbv beta. intros t Ht. now apply H.
  Qed.

  Lemma visit_deriv_sound a b e : runs (visit_deriv S D a b) e -> refines (EDeriv a b) e.
  Proof.
    unfold visit_deriv, operands. intros H. minv.
    apply (proj1 (runs_try _ _)) in Hr. apply (proj1 (runs_try _ _)) in Hr0.
    destruct Hr as [(a' & Ra & ->)|(s & _ & ->)]; [|minv].
    destruct Hr0 as [(b' & Rb & ->)|(s & _ & ->)]; [|minv].
    minv. intros rho v Hv. destruct b; try contradiction Hv.
    apply HSvar in Rb. subst b'. use_s.
    match goal with K : (_ && _)%bool = true |- _ => apply andb_prop in K; destruct K as [K1 K2] end.
    match goal with K : runs (D _ _) _ |- _ => apply HD in K; auto; rename K into KD end.
    repeat match goal with R : refines _ ?r |- ev ?r _ _ => apply R end.
    apply (refines_deriv _ _ x Ra). exact Hv.
  Qed.

  Lemma visit_int_sound a b e : refines (EInt a b) e.
  Proof. intros rho v []. Qed.

  Theorem simp_step_sound prefer e r : runs (simp_step S D I prefer e) r -> refines e r.
  Proof.
    destruct e as [c| |x| | | |rows cols d|o a b|o a]; simpl; intros H; try (minv; now intros rho v).
    - destruct o.
      + now apply visit_add_sound.
      + now apply visit_sub_sound.
      + now apply visit_mul_sound in H.
      + now apply visit_div_sound.
      + now apply visit_exp_sound.
      + now apply visit_log_sound.
      + now apply visit_deriv_sound.
      + apply visit_int_sound.
    - destruct o; [now apply visit_neg_sound|now apply visit_sine_sound|now apply visit_mag_sound].
  Qed.
End Sound.
