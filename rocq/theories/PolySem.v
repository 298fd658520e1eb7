(** The value of a sum of integer terms (SpecPoly.v). *)
From Coq Require Import String Bool Arith ZArith List Lia Reals Lra.
From Coquelicot Require Import Coquelicot.
From Verif Require Import Num Expr Spec SpecPoly PowProofs PolyProofs.
Import ListNotations.
Open Scope Z_scope.
Open Scope list_scope.

Section Sem.
  Context {num : Type}.
  Variables (lit : num -> Z -> Prop) (ok : Z -> Prop) (toR : num -> R).
  Hypothesis litR : forall c z, lit c z -> toR c = IZR z.
  Variable rho : env.

  (* the value of a power, and when it has one *)
  Definition kval (k : key) : C :=
    match k with None => RtoC 1 | Some (x, j) => cpowz (RtoC (rho x)) j end.
  Definition kok (p : string * Z) : Prop := snd p <> 0 /\ (RtoC (rho (fst p)) <> RtoC 0 \/ 0 < snd p).
  Fixpoint csum (ts : list monomial) : C :=
    match ts with [] => RtoC 0 | t :: ts => Cplus (Cmult (RtoC (IZR (snd t))) (kval (fst t))) (csum ts) end.

  Lemma csum_app a b : csum (a ++ b) = Cplus (csum a) (csum b).
  Proof. induction a as [|t a IH]; simpl; [ring|]. rewrite IH. ring. Qed.
  Lemma csum_scale z a : csum (scale z a) = Cmult (RtoC (IZR z)) (csum a).
  Proof. induction a as [|t a IH]; cbn [scale map csum fst snd]; [ring|]. fold (scale z a). rewrite IH, mult_IZR, RtoC_mult. ring. Qed.

  Lemma RtoC_m1 : RtoC (IZR (-1)) = Copp (RtoC 1).
  Proof. unfold RtoC, Copp. simpl. f_equal; lra. Qed.
  (* the terms other than multiples of [k] *)
  Definition others (k : key) (ts : list monomial) : list monomial := filter (fun t => negb (key_eqb k (fst t))) ts.
  Lemma csum_split k ts : csum ts = Cplus (Cmult (RtoC (IZR (total k ts))) (kval k)) (csum (others k ts)).
  Proof.
    induction ts as [|t ts IH]; [simpl; ring|]. cbn [csum total fold_right others filter]. fold (total k ts) (others k ts).
    rewrite plus_IZR, RtoC_plus. destruct (key_eqb k (fst t)) eqn:E; cbn [negb csum].
    - apply key_eqb_eq in E. rewrite IH, <- E. ring.
    - rewrite IH. ring.
  Qed.
  Lemma total_others k j ts : total j (others k ts) = if key_eqb j k then 0 else total j ts.
  Proof.
    induction ts as [|t ts IH]; [simpl; now destruct (key_eqb j k)|]. cbn [others filter]. fold (others k ts).
    destruct (key_eqb k (fst t)) eqn:E; cbn [negb total fold_right]; fold (total j ts) (total j (others k ts)); rewrite IH.
    - apply key_eqb_eq in E. rewrite <- E. destruct (key_eqb j k); lia.
    - destruct (key_eqb j k) eqn:F; [|reflexivity]. apply key_eqb_eq in F. subst j. now rewrite E.
  Qed.
  Lemma csum_zero : forall n ts, (length ts <= n)%nat -> (forall k, total k ts = 0) -> csum ts = RtoC 0.
  Proof.
    induction n as [|n IH]; intros ts L H; (destruct ts as [|t ts]; [reflexivity|]); [simpl in L; lia|].
    rewrite (csum_split (fst t)), H, (IH (others (fst t) (t :: ts))).
    - ring.
    - cbn [others filter]. rewrite key_eqb_refl. cbn [negb]. simpl in L.
      assert (K : forall (f : monomial -> bool) l, (length (filter f l) <= length l)%nat).
      { intros f l. induction l as [|u l IHl]; simpl; [lia|]. destruct (f u); simpl; lia. }
      eapply Nat.le_trans; [apply K|lia].
    - intros k. rewrite total_others, H. now destruct (key_eqb k (fst t)).
  Qed.
  Lemma csum_totals a b : (forall k, total k a = total k b) -> csum a = csum b.
  Proof.
    intros H. assert (K : csum (a ++ scale (-1) b) = RtoC 0).
    { apply (csum_zero (length (a ++ scale (-1) b))); [lia|]. intros k. rewrite total_app, total_scale, H. lia. }
    rewrite csum_app, csum_scale, RtoC_m1 in K.
    replace (csum a) with (Cplus (Cplus (csum a) (Cmult (Copp (RtoC 1)) (csum b))) (csum b)).
    - rewrite K. ring.
    - ring.
  Qed.

  Lemma ev_power p x k : power lit p x k ->
    (forall v, ev toR p rho v -> kok (x, k) /\ v = kval (Some (x, k))) /\
    (kok (x, k) -> ev toR p rho (kval (Some (x, k)))).
  Proof.
    intros Hp. destruct Hp as [x|x c k Hc K0 K1]; cbn [ev].
    - assert (K : kval (Some (x, 1)) = RtoC (rho x)) by (unfold kval, cpowz; change (Pos.to_nat 1) with 1%nat; cbn [cpow_nat]; ring).
      rewrite K. split; [|reflexivity]. intros v ->. split; [split; cbn; [lia|right; lia]|reflexivity].
    - rewrite (litR _ _ Hc). split.
      + intros v (p & q & -> & -> & H). split.
        * split; [exact K0|]. cbn. destruct (Z_lt_dec 0 k) as [L|L]; [now right|left]. intros E. rewrite E in H.
          apply cpow_base0_inv in H. destruct H as (r & Hr & H & _). apply RtoC_inj in Hr. subst r. apply lt_IZR in H. lia.
        * destruct (Z_lt_dec 0 k) as [L|L].
          -- eapply cpow_fun; [exact H|]. apply cpow_cpowz. now right.
          -- eapply cpow_fun; [exact H|]. apply cpow_cpowz. left. intros E. rewrite E in H.
             apply cpow_base0_inv in H. destruct H as (r & Hr & H & _). apply RtoC_inj in Hr. subst r. apply lt_IZR in H. lia.
      + intros [_ H]. exists (RtoC (rho x)), (RtoC (IZR k)). split; [reflexivity|]. split; [reflexivity|].
        now apply cpow_cpowz.
  Qed.

  Lemma ev_term post e t : term lit post e t ->
    (forall v, ev toR e rho v -> (forall p, In (Some p) (keys [t]) -> kok p) /\ v = csum [t]) /\
    ((forall p, In (Some p) (keys [t]) -> kok p) -> ev toR e rho (csum [t])).
  Proof.
    intros H. destruct H as [c z Hc|e x k Hp|c z e x k m Hc Hp Hm]; cbn [csum keys map fst snd].
    - assert (K : Cplus (Cmult (RtoC (IZR z)) (kval None)) (RtoC 0) = RtoC (toR c)) by (rewrite (litR _ _ Hc); simpl; ring).
      rewrite K. split; [|reflexivity]. intros v ->. split; [intros p [H|[]]; discriminate|reflexivity].
    - destruct (ev_power e x k Hp) as [H1 H2]. replace (Cplus (Cmult (RtoC 1) (kval (Some (x, k)))) (RtoC 0)) with (kval (Some (x, k))) by ring.
      split.
      + intros v Hv. destruct (H1 v Hv) as [K ->]. split; [|reflexivity]. intros p [E|[]]. now injection E as <-.
      + intros K. apply H2, K. now left.
    - destruct (ev_power e x k Hp) as [H1 H2]. replace (Cplus (Cmult (RtoC (IZR z)) (kval (Some (x, k)))) (RtoC 0)) with (Cmult (RtoC (IZR z)) (kval (Some (x, k)))) by ring.
      destruct Hm; cbn [ev]; split.
      + intros v (p & q & -> & Hq & ->). destruct (H1 q Hq) as [K ->]. rewrite (litR _ _ Hc).
        split; [|reflexivity]. intros p [E|[]]. now injection E as <-.
      + intros K. exists (RtoC (toR c)), (kval (Some (x, k))). split; [reflexivity|]. rewrite (litR _ _ Hc).
        split; [|reflexivity]. apply H2, K. now left.
      + intros v (p & q & Hq & -> & ->). destruct (H1 p Hq) as [K ->]. rewrite (litR _ _ Hc).
        split; [|ring]. intros p [E|[]]. now injection E as <-.
      + intros K. exists (kval (Some (x, k))), (RtoC (toR c)). rewrite (litR _ _ Hc).
        split; [apply H2, K; now left|]. split; [reflexivity|ring].
  Qed.

  Lemma ev_plain post e ts : plain lit post e ts -> (forall p, In (Some p) (keys ts) -> kok p) -> ev toR e rho (csum ts).
  Proof.
    intros H. induction H as [e t Ht|a b ta tb Ha IHa Hb IHb Hap]; intros K.
    - now apply (ev_term post).
    - rewrite keys_app in K. cbn [ev]. exists (csum ta), (csum tb). rewrite csum_app. split; [|split; [|reflexivity]].
      + apply IHa. intros p Hp. apply K, in_or_app. now left.
      + apply IHb. intros p Hp. apply K, in_or_app. now right.
  Qed.

  Lemma ev_poly prefer post e ts : poly lit ok prefer post e ts ->
    forall v, ev toR e rho v -> (forall p, In (Some p) (keys ts) -> kok p) /\ v = csum ts.
  Proof.
    intros H. induction H as [post e t Ht|e ts He IHe|post a b ta tb Ha IHa Hb IHb Hap|post a b ta tb Ha IHa Hb IHb Hap Hsh|a ta Ha IHa|c z a ta Hc Z0 Hz Hm Ha IHa];
      intros v Hv; cbn [ev] in Hv; rewrite ?keys_app, ?keys_scale, ?csum_app, ?csum_scale, ?RtoC_m1.
    - now apply (ev_term post e t Ht).
    - now apply IHe.
    - destruct Hv as (p & q & Hp & Hq & ->). destruct (IHa _ Hp) as [Ka ->]. destruct (IHb _ Hq) as [Kb ->].
      split; [|reflexivity]. intros k Hk. apply in_app_or in Hk. destruct Hk; auto.
    - destruct Hv as (p & q & Hp & Hq & ->). destruct (IHa _ Hp) as [Ka ->]. destruct (IHb _ Hq) as [Kb ->].
      split; [|ring]. intros k Hk. apply in_app_or in Hk. destruct Hk; auto.
    - destruct Hv as (w & Hw & ->). destruct (IHa _ Hw) as [Ka ->]. split; [exact Ka|ring].
    - destruct Hv as (p & q & -> & Hq & ->). destruct (IHa _ Hq) as [Ka ->]. split; [exact Ka|]. now rewrite (litR _ _ Hc).
  Qed.
End Sem.
