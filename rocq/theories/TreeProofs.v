(** Proofs about trees: building, casting, comparing. *)
From Coq Require Import String Bool Arith ZArith Lia List Permutation.
From Verif Require Import Base Num Expr Spec.
Import ListNotations.

Section Tree.
  Context {num : Type} {N : NumOps num}.
  Notation expr := (expr num).

  Lemma binop_eqb_eq a b : binop_eqb a b = true <-> a = b.
  Proof. destruct a, b; simpl; split; congruence. Qed.
  Lemma binop_eqb_refl a : binop_eqb a a = true.
  Proof. now apply binop_eqb_eq. Qed.
  Lemma unop_eqb_eq a b : unop_eqb a b = true <-> a = b.
  Proof. destruct a, b; simpl; split; congruence. Qed.
  Lemma unop_eqb_refl a : unop_eqb a a = true.
  Proof. now apply unop_eqb_eq. Qed.
  Lemma commut_commutative o : commut o = true <-> commutative o.
  Proof. unfold commutative; destruct o; simpl; split; intros; try easy; intuition congruence. Qed.
  Lemma assoc_commut o : assoc o = commut o.
  Proof. destruct o; reflexivity. Qed.

  (** ** BuildFromVector *)

  Lemma list_ind2 {A} (P : list A -> Prop) :
    P [] -> (forall x, P [x]) -> (forall x y l, P l -> P (x :: y :: l)) -> forall l, P l.
  Proof.
    intros H0 H1 H2. fix IH 1. intros [|x [|y l]].
    - exact H0.
    - apply H1.
    - apply H2, IH.
  Qed.

  Lemma pair_pass_length o (l : list expr) :
    length (pair_pass o l) = Nat.div2 (S (length l)).
  Proof.
    induction l as [| |x y l IH] using list_ind2; simpl; auto.

  Qed.

  Lemma pair_pass_flat o (l : list expr) :
    flat_map (flat o) (pair_pass o l) = flat_map (flat o) l.
  Proof.
    induction l as [| |x y l IH] using list_ind2; simpl; auto.
    rewrite binop_eqb_refl, IH. now rewrite app_assoc.
  Qed.

  Lemma div2_lt n : 2 <= n -> Nat.div2 (S n) < n.
  Proof.
    intros H. rewrite Nat.div2_div.
    apply Nat.div_lt_upper_bound; lia.
  Qed.
  Lemma div2_pos n : 1 <= n -> 1 <= Nat.div2 (S n).
  Proof. intros H. destruct n as [|n]; [lia|]. simpl. lia. Qed.

  Lemma build_loop_fuel o : forall n (l : list expr),
    1 <= length l <= n -> exists t, build_loop n o l = Some t.
  Proof.
    induction n as [|n IH]; intros l [H1 H2]; [lia|].
    destruct l as [|a [|b l]]; simpl in *; [lia| eauto |].
    apply IH. simpl. rewrite pair_pass_length.
    pose proof (div2_lt (S (S (length l)))) as Hd. simpl in Hd |- *. lia.
  Qed.

  Lemma build_loop_flat o : forall n (l : list expr) t,
    build_loop n o l = Some t -> flat o t = flat_map (flat o) l.
  Proof.
    induction n as [|n IH]; intros l t H; [discriminate|].
    destruct l as [|a [|b l]]; simpl in *; [discriminate| |].
    - injection H as <-. now rewrite app_nil_r.
    - apply IH in H. rewrite H. change (EBin o a b :: pair_pass o l) with (pair_pass o (a :: b :: l)).
      now rewrite pair_pass_flat.
  Qed.

  Lemma build_loop_node o : forall n (l : list expr) t,
    2 <= length l -> build_loop n o l = Some t -> exists a b, t = EBin o a b.
  Proof.
    induction n as [|n IH]; intros l t Hl H; [discriminate|].
    destruct l as [|a [|b l]]; simpl in *; [lia|lia|].
    destruct l as [|c l].
    - simpl in H. destruct n as [|n]; [discriminate|]. simpl in H. injection H as <-. eauto.
    - apply (IH (pair_pass o (a :: b :: c :: l))); [|exact H].
      rewrite pair_pass_length. simpl. lia.
  Qed.

  Lemma flat_map_single o (l : list expr) :
    Forall (not_node o) l -> flat_map (flat o) l = l.
  Proof.
    induction 1 as [|x l Hx _ IH]; simpl; auto.
    rewrite IH. destruct x; simpl; auto.
    destruct (binop_eqb o o0) eqn:E; auto.
    apply binop_eqb_eq in E; subst. now destruct (Hx x1 x2).
  Qed.

  Lemma build_spec o (l : list expr) :
    2 <= length l -> exists a b, build o l = Some (EBin o a b)
                                 /\ flatten o a b = flat_map (flat o) l.
  Proof.
    intros H. unfold build.
    destruct l as [|x [|y l]]; simpl in H; try lia.
    destruct (build_loop_fuel o (length (x :: y :: l)) (x :: y :: l)) as [t Ht]; [simpl; lia|].
    destruct (build_loop_node o _ (x :: y :: l) t H Ht) as (a & b & ->).
    exists a, b. split; [exact Ht|].
    apply build_loop_flat in Ht. simpl in Ht. rewrite binop_eqb_refl in Ht. exact Ht.
  Qed.

  Lemma build_short o (l : list expr) : length l < 2 -> build o l = None.
  Proof. destruct l as [|x [|y l]]; simpl; intros; try reflexivity; lia. Qed.

  Lemma build_roundtrip o (l : list expr) :
    Forall (not_node o) l ->
    (length l < 2 -> build o l = None) /\
    (2 <= length l -> exists a b, build o l = Some (EBin o a b) /\ flatten o a b = l).
  Proof.
    intros Hl. split; [apply build_short|]. intros H.
    destruct (build_spec o l H) as (a & b & E & F).
    exists a, b. split; auto. now rewrite F, flat_map_single.
  Qed.

  (** Depth: a pass adds at most one level. *)
  Lemma tree_over_mono o d d' (l : list expr) t : tree_over o d l t -> d <= d' -> tree_over o d' l t.
  Proof.
    intros H; revert d'. induction H; intros d' Hd.
    - constructor.
    - destruct d' as [|d']; [lia|]. constructor; [apply IHtree_over1|apply IHtree_over2]; lia.
  Qed.

  (* a list of trees over consecutive segments of [l] *)
  Inductive trees (o : binop) (d : nat) : list expr -> list expr -> Prop :=
  | trees_nil : trees o d [] []
  | trees_cons l1 t l2 ts : tree_over o d l1 t -> trees o d l2 ts -> trees o d (l1 ++ l2) (t :: ts).

  Lemma trees_pass o d : forall ts l, trees o d l ts -> trees o (S d) l (pair_pass o ts).
  Proof.
    induction ts as [|x|x y ts IH] using list_ind2; intros l H; simpl.
    - inversion H; subst; constructor.
    - inversion H; subst. constructor; [|inversion H4; constructor].
      eapply tree_over_mono; eauto.
    - inversion H; subst. inversion H4; subst.
      rewrite app_assoc. constructor; [now constructor|]. now apply IH.
  Qed.

  Lemma trees_refl o (l : list expr) : trees o 0 l l.
  Proof.
    induction l as [|x l IH]; [constructor|].
    change (x :: l) with ([x] ++ l) at 1. constructor; auto. constructor.
  Qed.

  Lemma log2_up_half n : 2 <= n -> Nat.log2_up n = S (Nat.log2_up (Nat.div2 (S n))).
  Proof.
    intros H. destruct (Nat.eq_dec n 2) as [->|Hn]; [reflexivity|].
    rewrite Nat.div2_div.
    pose proof (Nat.log2_up_spec n ltac:(lia)) as [H1 H2].
    assert (Hp : 1 < Nat.log2_up n).
    { destruct (Nat.log2_up n) as [|[|k]] eqn:E; [simpl in H2; lia|simpl in H2; lia|lia]. }
    assert (E : Nat.log2_up (S n / 2) = Nat.pred (Nat.log2_up n)).
    { apply Nat.log2_up_unique; [lia|].
      destruct (Nat.log2_up n) as [|[|k]] eqn:E; try lia. simpl Nat.pred in *.
      change (2 ^ S (S k)) with (2 * 2 ^ S k) in H2.
      change (2 ^ S k) with (2 * 2 ^ k) in H1 |- *.
      change (2 ^ S k) with (2 * 2 ^ k) in H2.
      split.
      - apply Nat.div_le_lower_bound; lia.
      - apply Nat.lt_succ_r, Nat.div_lt_upper_bound; lia. }
    rewrite E. lia.
  Qed.

  Lemma build_loop_trees o : forall n (ts l : list expr) d t,
    trees o d l ts -> build_loop n o ts = Some t ->
    tree_over o (d + Nat.log2_up (length ts)) l t.
  Proof.
    induction n as [|n IH]; intros ts l d t H B; [discriminate|].
    destruct ts as [|a [|b ts]]; simpl in B; [discriminate| |].
    - injection B as <-. inversion H; subst. inversion H4; subst.
      rewrite app_nil_r. eapply tree_over_mono; eauto. lia.
    - change (EBin o a b :: pair_pass o ts) with (pair_pass o (a :: b :: ts)) in B.
      apply trees_pass in H. specialize (IH _ _ _ _ H B).
      rewrite pair_pass_length in IH.
      rewrite (log2_up_half (length (a :: b :: ts))) by (simpl; lia).
      eapply tree_over_mono; eauto. lia.
  Qed.

  Lemma build_balanced o (l : list expr) t :
    build o l = Some t -> tree_over o (Nat.log2_up (length l)) l t.
  Proof.
    unfold build. intros H.
    assert (B : build_loop (length l) o l = Some t).
    { destruct l as [|x [|y l]]; try discriminate; exact H. }
    exact (build_loop_trees _ _ _ _ _ _ (trees_refl o l) B).
  Qed.

  Lemma tree_over_nonempty o d (l : list expr) t : tree_over o d l t -> 1 <= length l.
  Proof. induction 1; simpl; [lia|]. rewrite app_length. lia. Qed.

  Lemma tree_over_nodes o d (l : list expr) t :
    tree_over o d l t -> nodes_over o (length l - 1) l t.
  Proof.
    induction 1; simpl; [constructor|].
    pose proof (tree_over_nonempty _ _ _ _ H). pose proof (tree_over_nonempty _ _ _ _ H0).
    rewrite app_length.
    replace (length l1 + length l2 - 1) with (1 + (length l1 - 1) + (length l2 - 1)) by lia.
    now constructor.
  Qed.

  Lemma build_nodes o (l : list expr) t :
    build o l = Some t -> nodes_over o (length l - 1) l t.
  Proof. intros H. eapply tree_over_nodes, build_balanced, H. Qed.

  Lemma nary_build o (a b : expr) l : nary o a b l = build o (a :: b :: l).
  Proof.
    unfold nary.
    destruct (build_spec o (a :: b :: l)) as (x & y & E & _); [simpl; lia|].
    now rewrite E.
  Qed.

  (** ** RecursiveCast *)

  Lemma rcast_sound : forall p (e r : expr), rcast p e = Some r -> fits p r /\ reorders e r.
  Proof.
    induction p; intros e r H; simpl in H;
      try (destruct e; try discriminate; injection H as <-; split; constructor; fail).
    - destruct e as [| | | | | | |o' a b|]; try discriminate.
      destruct (binop_eqb o o') eqn:Eo; [|discriminate].
      apply binop_eqb_eq in Eo; subst o'.
      assert (Hsw : (if commut o then
              match rcast p1 b, rcast p2 a with
              | Some b', Some a' => Some (EBin o b' a')
              | _, _ => None
              end
            else None) = Some r -> fits (PBin o p1 p2) r /\ reorders (EBin o a b) r).
      { destruct (commut o) eqn:Ec; [|discriminate].
        destruct (rcast p1 b) eqn:E1; [|discriminate].
        destruct (rcast p2 a) eqn:E2; [|discriminate].
        intros E; injection E as <-.
        apply IHp1 in E1. apply IHp2 in E2. destruct E1, E2.
        split; [now constructor|]. apply ro_swap; auto. now apply commut_commutative. }
      destruct (rcast p1 a) eqn:E1; [|auto].
      destruct (rcast p2 b) eqn:E2; [|auto].
      injection H as <-. apply IHp1 in E1. apply IHp2 in E2. destruct E1, E2.
      split; constructor; auto.
    - destruct e as [| | | | | | | |o' a]; try discriminate.
      destruct (unop_eqb o o') eqn:Eo; [|discriminate].
      apply unop_eqb_eq in Eo; subst o'.
      destruct (rcast p a) eqn:E; [|discriminate]. simpl in H. injection H as <-.
      apply IHp in E. destruct E. split; constructor; auto.
  Qed.

  Lemma reorders_bin_inv o (a b r : expr) : reorders (EBin o a b) r ->
    exists x y, reorders a x /\ reorders b y /\
      (r = EBin o x y \/ (commutative o /\ r = EBin o y x)).
  Proof.
    intros H; inversion H; subst.
    - exists a, b. repeat split; auto using ro_refl.
    - exists a', b'. auto.
    - exists a', b'. auto.
  Qed.

  Lemma reorders_leaf (e r : expr) :
    (forall o a b, e <> EBin o a b) -> (forall o a, e <> EUn o a) -> reorders e r -> r = e.
  Proof.
    intros H1 H2 H; inversion H; subst; auto.
    - now destruct (H1 o a b).
    - now destruct (H1 o a b).
    - now destruct (H2 o a).
  Qed.

  Lemma reorders_un_inv o (a r : expr) : reorders (EUn o a) r -> exists x, reorders a x /\ r = EUn o x.
  Proof. intros H; inversion H; subst; eauto using ro_refl. Qed.

  Lemma reorders_leaf_type (e r : expr) : reorders e r -> type_of r = type_of e.
  Proof. destruct 1; reflexivity. Qed.

  Lemma rcast_complete : forall p (e r : expr),
    reorders e r -> fits p r -> exists r', rcast p e = Some r'.
  Proof.
    induction p; intros e r Hr Hf; simpl; eauto;
      try (inversion Hf; subst; apply reorders_leaf_type in Hr; destruct e; try discriminate; eauto; fail).
    - inversion Hf; subst.
      pose proof (reorders_leaf_type _ _ Hr) as Ht.
      destruct e as [| | | | | | |o' x y|]; try discriminate. simpl in Ht. injection Ht as <-.
      rewrite binop_eqb_refl.
      destruct (reorders_bin_inv _ _ _ _ Hr) as (x' & y' & Hx & Hy & [E | [Hc E]]);
        injection E as -> ->.
      + destruct (IHp1 _ _ Hx H3) as [u ->]. destruct (IHp2 _ _ Hy H4) as [w ->]. eauto.
      + apply commut_commutative in Hc. rewrite Hc.
        destruct (IHp1 _ _ Hy H3) as [u ->]. destruct (IHp2 _ _ Hx H4) as [w ->].
        destruct (rcast p1 x), (rcast p2 y); eauto.
    - inversion Hf; subst.
      pose proof (reorders_leaf_type _ _ Hr) as Ht.
      destruct e as [| | | | | | | |o' x]; try discriminate. simpl in Ht. injection Ht as <-.
      rewrite unop_eqb_refl. apply reorders_un_inv in Hr. destruct Hr as (x' & Hx & E).
      injection E as ->. destruct (IHp _ _ Hx H2) as [u ->]. simpl. eauto.
  Qed.

  Lemma rcast_none p (e : expr) :
    rcast p e = None <-> ~ exists r, reorders e r /\ fits p r.
  Proof.
    split.
    - intros H (r & Hr & Hf). destruct (rcast_complete _ _ _ Hr Hf). congruence.
    - intros H. destruct (rcast p e) as [r|] eqn:E; auto.
      destruct H. apply rcast_sound in E. exists r. tauto.
  Qed.

  Lemma fits_rcast : forall p (e : expr), fits p e -> rcast p e = Some e.
  Proof.
    induction 1; simpl; auto.
    - rewrite binop_eqb_refl, IHfits1, IHfits2. reflexivity.
    - rewrite unop_eqb_refl, IHfits. reflexivity.
  Qed.

  Lemma set_most_spec p o (a b x : expr) :
    (snd (set_most p o a b x) = true /\
       exists x', fits p x' /\ reorders x x' /\ fst (set_most p o a b x) = EBin o x' b
                  /\ (fits p x -> x' = x)) \/
    (snd (set_most p o a b x) = false /\ fst (set_most p o a b x) = EBin o a b /\
       ~ exists x', reorders x x' /\ fits p x').
  Proof.
    unfold set_most. destruct (rcast p x) as [x'|] eqn:E; simpl; [left|right].
    - split; auto. exists x'. pose proof (rcast_sound _ _ _ E) as [H1 H2]. repeat split; auto.
      intros Hf. apply fits_rcast in Hf. congruence.
    - repeat split; auto. now apply rcast_none.
  Qed.

  Lemma set_least_spec p o (a b x : expr) :
    (snd (set_least p o a b x) = true /\
       exists x', fits p x' /\ reorders x x' /\ fst (set_least p o a b x) = EBin o a x'
                  /\ (fits p x -> x' = x)) \/
    (snd (set_least p o a b x) = false /\ fst (set_least p o a b x) = EBin o a b /\
       ~ exists x', reorders x x' /\ fits p x').
  Proof.
    unfold set_least. destruct (rcast p x) as [x'|] eqn:E; simpl; [left|right].
    - split; auto. exists x'. pose proof (rcast_sound _ _ _ E) as [H1 H2]. repeat split; auto.
      intros Hf. apply fits_rcast in Hf. congruence.
    - repeat split; auto. now apply rcast_none.
  Qed.

  (** ** Equals *)

  (** The two components of [eqm], as written in the source. *)
  Fixpoint all_found (l m : list expr) : option bool :=
    match l with
    | [] => Some true
    | x :: l => match find_eq (equals x) m with
                | Some true => all_found l m
                | r => r
                end
    end.

  Lemma all_found_app l1 l2 m :
    all_found (l1 ++ l2) m =
    match all_found l1 m with Some true => all_found l2 m | r => r end.
  Proof.
    induction l1 as [|x l1 IH]; simpl; auto.
    destruct (find_eq (equals x) m) as [[]|]; auto.
  Qed.

  Lemma snd_eqm : forall (a : expr) o m, snd (eqm a) o m = all_found (flat o a) m.
  Proof.
    induction a; intros o' m; simpl; unfold equals; simpl;
      try (destruct (find_eq _ m) as [[]|]; reflexivity).
    - destruct (binop_eqb o' o) eqn:E.
      + rewrite all_found_app, IHa1, IHa2.
        destruct (all_found (flat o' a1) m) as [[]|]; reflexivity.
      + simpl. unfold equals. simpl. destruct (find_eq _ m) as [[]|]; reflexivity.
  Qed.

  Lemma equals_bin o (l r b : expr) :
    equals (EBin o l r) b =
    match b with
    | EBin o' l' r' =>
      if binop_eqb o o' then
        match equals l l' with
        | None => None
        | Some bl =>
          match equals r r' with
          | None => None
          | Some br =>
            if bl && br then Some true
            else if assoc o then all_found (flatten o l r) (flatten o l' r')
            else Some false
          end
        end
      else Some false
    | _ => Some false
    end.
  Proof.
    unfold equals at 1. simpl. destruct b; auto.
    destruct (binop_eqb o o0) eqn:E; auto. apply binop_eqb_eq in E; subst o0.
    fold (equals l b1). fold (equals r b2).
    destruct (equals l b1) as [bl|]; auto. destruct (equals r b2) as [br|]; auto.
    destruct (bl && br); auto. destruct (assoc o); auto.
    unfold flatten. rewrite all_found_app, snd_eqm, snd_eqm.
    destruct (all_found (flat o l) _) as [[]|]; reflexivity.
  Qed.

  Lemma equals_un o (x b : expr) :
    equals (EUn o x) b =
    match b with
    | EUn o' y => if unop_eqb o o' then equals x y else Some false
    | _ => Some false
    end.
  Proof. reflexivity. Qed.

  Lemma forall_sub_flat P o : forall e : expr, forall_sub P e -> Forall (forall_sub P) (flat o e).
  Proof.
    induction e; intros H; simpl; try (constructor; [exact H|constructor]).
    destruct (binop_eqb o o0); [|constructor; [exact H|constructor]].
    destruct H as [_ [H1 H2]]. apply Forall_app. auto.
  Qed.

  Lemma all_eqb_refl d : Forall (fun c => n_eqb c c = true) d -> all_eqb d d = true.
  Proof. induction 1; simpl; auto. now rewrite H, IHForall. Qed.

  Lemma equals_refl : forall e, no_undef e -> no_nan e -> equals e e = Some true.
  Proof.
    induction e; intros Hu Hn; unfold equals; simpl; auto.
    - destruct Hn as [Hn _]. now rewrite Hn.
    - now rewrite String.eqb_refl.
    - destruct Hu as [Hu _]. congruence.
    - destruct Hn as [Hn _]. now rewrite !Nat.eqb_refl, all_eqb_refl.
    - destruct Hu as [_ [Hu1 Hu2]], Hn as [_ [Hn1 Hn2]].
      fold (equals e1 e1) (equals e2 e2). rewrite binop_eqb_refl, IHe1, IHe2 by assumption. reflexivity.
    - destruct Hu as [_ Hu], Hn as [_ Hn]. fold (equals e e).
      rewrite unop_eqb_refl. now apply IHe.
  Qed.

  (** Equality answers on a receiver without Pi. *)
  Lemma find_eq_total (f : expr -> option bool) l : (forall x, f x <> None) -> find_eq f l <> None.
  Proof.
    intros H. induction l as [|y l IH]; simpl; [discriminate|].
    specialize (H y). destruct (f y) as [[]|]; congruence.
  Qed.

  Lemma eqm_total : forall a, no_pi a ->
    (forall b, fst (eqm a) b <> None) /\ (forall o l, snd (eqm a) o l <> None).
  Proof.
    induction a; intros Hp;
      try (split; [intros b; simpl; destruct b; discriminate
                  |intros o l; simpl; apply find_eq_total; intros y; destruct y; discriminate]).
    - destruct Hp as [Hp _]. congruence.
    - destruct Hp as [_ [H1 H2]]. destruct (IHa1 H1) as [F1 G1], (IHa2 H2) as [F2 G2].
      assert (Hinv : forall op lst, match snd (eqm a1) op lst with
                                    | Some true => snd (eqm a2) op lst | x => x end <> None).
      { intros op lst. specialize (G1 op lst). destruct (snd (eqm a1) op lst) as [[]|]; auto. }
      assert (He : forall b, fst (eqm (EBin o a1 a2)) b <> None).
      { intros b. simpl. destruct b; try discriminate.
        destruct (binop_eqb o o0); [|discriminate].
        specialize (F1 b1). destruct (fst (eqm a1) b1) as [x|]; auto.
        specialize (F2 b2). destruct (fst (eqm a2) b2) as [y|]; auto.
        destruct (x && y); [discriminate|]. destruct (assoc o); [|discriminate]. apply Hinv. }
      split; auto. intros op lst. simpl. destruct (binop_eqb op o); [apply Hinv|].
      apply find_eq_total. exact He.
    - destruct Hp as [_ Hp]. destruct (IHa Hp) as [F _].
      assert (He : forall b, fst (eqm (EUn o a)) b <> None).
      { intros b. simpl. destruct b; try discriminate. destruct (unop_eqb o o0); [apply F|discriminate]. }
      split; auto. intros op lst. apply find_eq_total. exact He.
  Qed.

  Lemma equals_total a b : no_pi a -> equals a b <> None.
  Proof. intros H. now apply eqm_total. Qed.

  Lemma find_eq_true (f : expr -> option bool) l y : (forall x, f x <> None) -> In y l -> f y = Some true -> find_eq f l = Some true.
  Proof.
    intros Ht. induction l as [|z l IH]; simpl; [easy|]. intros Hin Hy.
    pose proof (Ht z) as Hz. destruct (f z) as [[]|] eqn:E; auto; [|congruence].
    destruct Hin as [->|Hin]; auto. congruence.
  Qed.

  Lemma all_found_incl : forall l m,
    Forall no_pi l -> Forall no_undef l -> Forall no_nan l ->
    (forall x, In x l -> In x m) -> all_found l m = Some true.
  Proof.
    induction l as [|x l IH]; intros m H1 H2 H3 Hi; simpl; auto.
    inversion H1; inversion H2; inversion H3; subst.
    rewrite (find_eq_true (equals x) m x).
    - apply IH; auto. intros y Hy. apply Hi. now right.
    - intros y. now apply equals_total.
    - apply Hi. now left.
    - now apply equals_refl.
  Qed.

  Lemma equals_perm o (a b a' b' : expr) :
    commutative o ->
    no_pi (EBin o a b) -> no_undef (EBin o a b) -> no_nan (EBin o a b) ->
    Permutation (flatten o a b) (flatten o a' b') ->
    equals (EBin o a b) (EBin o a' b') = Some true.
  Proof.
    intros Hc Hp Hu Hn P. rewrite equals_bin, binop_eqb_refl.
    pose proof Hp as [_ [Hp1 Hp2]].
    pose proof (equals_total a a' Hp1) as T1. pose proof (equals_total b b' Hp2) as T2.
    destruct (equals a a') as [x|]; [|congruence]. destruct (equals b b') as [y|]; [|congruence].
    destruct (x && y); auto.
    assert (Ha : assoc o = true) by (rewrite assoc_commut; now apply commut_commutative).
    rewrite Ha. destruct Hu as [_ [Hu1 Hu2]], Hn as [_ [Hn1 Hn2]].
    unfold flatten. apply all_found_incl; try (apply Forall_app; split; now apply forall_sub_flat).
    intros z. apply Permutation_in. exact P.
  Qed.

  (** Without associative nodes and Pi, Equals is equality up to [==]. *)
  Inductive same : expr -> expr -> Prop :=
  | same_real x y : n_eqb x y = true -> same (EReal x) (EReal y)
  | same_imag : same EImag EImag
  | same_var x : same (EVar x) (EVar x)
  | same_euler : same EEuler EEuler
  | same_pi : same EPi EPi
  | same_mat r c d d' : all_eqb d d' = true -> same (EMat r c d) (EMat r c d')
  | same_bin o a b a' b' : same a a' -> same b b' -> same (EBin o a b) (EBin o a' b')
  | same_un o a a' : same a a' -> same (EUn o a) (EUn o a').

  Lemma equals_same_true : forall a b, no_assoc a -> equals a b = Some true -> same a b.
  Proof.
    induction a; intros b Hna H; unfold equals in H; simpl in H.
    - destruct b; try discriminate. injection H as H. now constructor.
    - destruct b; try discriminate. constructor.
    - destruct b; try discriminate. injection H as H. apply String.eqb_eq in H. subst. constructor.
    - discriminate.
    - destruct b; try discriminate. constructor.
    - destruct b; try discriminate. constructor.
    - destruct b; try discriminate. injection H as H. apply andb_prop in H. destruct H as [H1 H2].
      apply andb_prop in H1. destruct H1 as [H0 H1].
      apply Nat.eqb_eq in H0, H1. subst. now constructor.
    - fold (equals (EBin o a1 a2) b) in H. destruct b; try discriminate.
      destruct Hna as [Ho [H1 H2]].
      destruct (binop_eqb o o0) eqn:E; [|discriminate]. apply binop_eqb_eq in E; subst o0.
      fold (equals a1 b1) in H. fold (equals a2 b2) in H.
      destruct (equals a1 b1) as [x|] eqn:E1; [|discriminate].
      destruct (equals a2 b2) as [y|] eqn:E2; [|discriminate].
      destruct (x && y) eqn:Exy.
      + apply andb_prop in Exy. destruct Exy; subst. constructor; auto.
      + destruct (assoc o) eqn:Ea; [|discriminate].
        rewrite assoc_commut in Ea. apply commut_commutative in Ea.
        now destruct (Ho o a1 a2 eq_refl).
    - destruct b; try discriminate. destruct Hna as [_ Hna].
      destruct (unop_eqb o o0) eqn:E; [|discriminate]. apply unop_eqb_eq in E; subst o0.
      constructor. apply IHa; auto.
  Qed.

  Lemma same_equals_true : forall a b, same a b -> equals a b = Some true.
  Proof.
    induction 1; unfold equals; simpl; auto.
    - now rewrite H.
    - now rewrite String.eqb_refl.
    - now rewrite !Nat.eqb_refl, H.
    - fold (equals a a') (equals b b'). now rewrite binop_eqb_refl, IHsame1, IHsame2.
    - fold (equals a a'). now rewrite unop_eqb_refl.
  Qed.

  Lemma all_eqb_sym : (forall x y, n_eqb x y = n_eqb y x) -> forall d d', all_eqb d d' = all_eqb d' d.
  Proof.
    intros Hs. induction d as [|x d IH]; intros [|y d']; simpl; auto.
    now rewrite Hs, IH.
  Qed.

  Lemma same_sym : (forall x y, n_eqb x y = n_eqb y x) -> forall a b, same a b -> same b a.
  Proof.
    intros Hs. induction 1; constructor; auto.
    - now rewrite Hs.
    - now rewrite all_eqb_sym.
  Qed.

  Lemma equals_sym_plain : (forall x y, n_eqb x y = n_eqb y x) ->
    forall a b, no_assoc a -> no_pi a -> no_assoc b -> no_pi b -> equals a b = equals b a.
  Proof.
    intros Hs a b Ha Pa Hb Pb.
    destruct (equals a b) as [[]|] eqn:E1.
    - symmetry. apply same_equals_true, same_sym, equals_same_true; auto.
    - destruct (equals b a) as [[]|] eqn:E2; auto.
      + apply equals_same_true in E2; auto. apply same_sym in E2; auto.
        apply same_equals_true in E2. congruence.
      + now destruct (equals_total b a Pb).
    - now destruct (equals_total a b Pa).
  Qed.

  (** ** StructurallyEquivalent *)

  Lemma ety_eqb_eq a b : ety_eqb a b = true <-> a = b.
  Proof.
    destruct a, b; simpl; split; intros H; try congruence;
      try (apply binop_eqb_eq in H; congruence); try (apply unop_eqb_eq in H; congruence);
      injection H as ->; [apply binop_eqb_refl|apply unop_eqb_refl].
  Qed.

  Lemma struct_equiv_shape : forall a b : expr, struct_equiv a b = true <-> same_shape a b.
  Proof.
    induction a; intros b';
      try (split; [intros H; cbn [struct_equiv] in H; apply ety_eqb_eq in H; apply ss_other; [exact H|discriminate]
                  |intros H; inversion H; subst; cbn [struct_equiv]; apply ety_eqb_eq; assumption]).
    simpl. split.
    - destruct b'; try discriminate. intros H. apply andb_prop in H. destruct H as [Ho H].
      apply andb_prop in H. destruct H as [H1 H2]. apply binop_eqb_eq in Ho. subst.
      constructor; [now apply IHa1|now apply IHa2].
    - intros H; inversion H; subst.
      + rewrite binop_eqb_refl. simpl. apply andb_true_intro. split; [now apply IHa1|now apply IHa2].
      + now destruct (H1 o a1 a2).
  Qed.

  Lemma same_shape_refl : forall a : expr, same_shape a a.
  Proof.
    induction a; try (apply ss_other; [reflexivity|discriminate]). now constructor.
  Qed.
  Lemma same_shape_sym : forall a b : expr, same_shape a b -> same_shape b a.
  Proof.
    induction 1; [now constructor|]. apply ss_other; [easy|].
    intros o a b ->. destruct e; simpl in H; try discriminate. injection H as ->. now destruct (H0 o e1 e2).
  Qed.
  Lemma same_shape_trans : forall a b : expr, same_shape a b -> forall c, same_shape b c -> same_shape a c.
  Proof.
    induction 1; intros c Hc; inversion Hc; subst.
    - constructor; auto.
    - now destruct (H2 o a' b').
    - destruct e; simpl in H; try discriminate. injection H as ->. now destruct (H0 o e1 e2).
    - apply ss_other; [congruence|auto].
  Qed.

  Lemma same_same_shape a b : same a b -> same_shape a b.
  Proof.
    induction 1; try (apply ss_other; [reflexivity|discriminate]).
    now constructor.
  Qed.

  Lemma struct_equiv_equiv :
    (forall a : expr, struct_equiv a a = true) /\
    (forall a b : expr, struct_equiv a b = true -> struct_equiv b a = true) /\
    (forall a b c : expr, struct_equiv a b = true -> struct_equiv b c = true -> struct_equiv a c = true).
  Proof.
    repeat split; intros *; rewrite ?struct_equiv_shape;
      eauto using same_shape_refl, same_shape_sym, same_shape_trans.
  Qed.

  Lemma equals_struct_equiv a b : no_assoc a -> equals a b = Some true -> struct_equiv a b = true.
  Proof. intros Ha H. apply struct_equiv_shape, same_same_shape, equals_same_true; auto. Qed.
End Tree.
