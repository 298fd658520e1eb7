(** Facts about Equals on trees with sums and products. *)
From Coq Require Import String Bool Arith ZArith Reals Lia.
From Coquelicot Require Import Coquelicot.
From Coq Require Import List Permutation.
From Verif Require Import Base Num Expr Spec SpecEquals TreeProofs SemProofs.
Import ListNotations.
Open Scope nat_scope.
Open Scope list_scope.

Section Equal.
  Context {num : Type} {N : NumOps num}.
  Notation expr := (expr num).
  Hypothesis eqb_sym : forall x y : num, n_eqb x y = n_eqb y x.
  Hypothesis eqb_trans : forall x y z : num, n_eqb x y = true -> n_eqb y z = true -> n_eqb x z = true.

  Definition le (a b : expr) : Prop := equals a b = Some true.

  Fixpoint esize (e : expr) : nat :=
    match e with EBin _ a b => S (esize a + esize b) | EUn _ a => S (esize a) | _ => 1 end.
  Lemma esize_pos (e : expr) : 1 <= esize e.
  Proof. destruct e; cbn; lia. Qed.
  Lemma flat_esize o (e : expr) : forall f, In f (flat o e) -> esize f <= esize e.
  Proof.
    induction e as [| | | | | | |o' p IHp q IHq|o' p IHp]; intros f H; try (destruct H as [<-|[]]; auto; fail).
    cbn [flat] in H. destruct (binop_eqb o o'); [|destruct H as [<-|[]]; auto].
    apply in_app_iff in H. cbn [esize]. destruct H as [H|H]; [specialize (IHp _ H)|specialize (IHq _ H)]; lia.
  Qed.
  Lemma flatten_esize o (a b f : expr) : In f (flatten o a b) -> esize f < esize (EBin o a b).
  Proof. unfold flatten. rewrite in_app_iff. cbn [esize]. intros [H|H]; apply flat_esize in H; lia. Qed.
  Lemma flat_not_node o (e : expr) : forall f, In f (flat o e) -> flat o f = [f].
  Proof.
    induction e as [| | | | | | |o' p IHp q IHq|o' p IHp]; intros f H; try (destruct H as [<-|[]]; reflexivity).
    cbn [flat] in H. destruct (binop_eqb o o') eqn:E.
    - apply in_app_iff in H. destruct H; auto.
    - destruct H as [<-|[]]. cbn. now rewrite E.
  Qed.

  Lemma find_eq_inv (f : expr -> option bool) l : find_eq f l = Some true -> exists y, In y l /\ f y = Some true.
  Proof.
    induction l as [|y l IH]; cbn; [discriminate|]. destruct (f y) as [[]|] eqn:E; intros H; try discriminate.
    - exists y. auto.
    - destruct (IH H) as (z & Hz & Ez). exists z. auto.
  Qed.
  Lemma all_found_inv l m : all_found l m = Some true -> forall x, In x l -> exists y, In y m /\ le x y.
  Proof.
    induction l as [|z l IH]; cbn; intros H x Hx; [contradiction|].
    destruct (find_eq (equals z) m) as [[]|] eqn:E; try discriminate. destruct Hx as [->|Hx]; [now apply find_eq_inv|auto].
  Qed.
  Lemma all_found_intro l m : Forall no_pi l -> (forall x, In x l -> exists y, In y m /\ le x y) -> all_found l m = Some true.
  Proof.
    induction 1 as [|z l Hz Hl IH]; intros H; [reflexivity|]. cbn [all_found]. destruct (H z (or_introl eq_refl)) as (y & Hy & E).
    rewrite (find_eq_true (equals z) m y); auto.
    - apply IH. intros x Hx. apply H. now right.
    - intros x. now apply equals_total.
  Qed.

  Lemma le_bin_inv o (l r b : expr) : le (EBin o l r) b -> exists l' r', b = EBin o l' r' /\
    (le l l' /\ le r r' \/ commutative o /\ forall x, In x (flatten o l r) -> exists y, In y (flatten o l' r') /\ le x y).
  Proof.
    unfold le at 1. rewrite equals_bin. destruct b as [| | | | | | |o' l' r'|]; try discriminate.
    destruct (binop_eqb o o') eqn:E; [|discriminate]. apply binop_eqb_eq in E. subst o'.
    destruct (equals l l') as [x|] eqn:E1; [|discriminate]. destruct (equals r r') as [y|] eqn:E2; [|discriminate].
    intros H. exists l', r'. split; [reflexivity|]. destruct (x && y) eqn:Exy.
    - apply andb_prop in Exy. destruct Exy; subst. left. split; assumption.
    - destruct (assoc o) eqn:A; [|discriminate]. rewrite assoc_commut in A. apply commut_commutative in A.
      right. split; [exact A|]. now apply all_found_inv.
  Qed.
  Lemma le_leaf_flat (a b : expr) o : (forall p q, a <> EBin o p q) -> le a b -> flat o a = [a] /\ flat o b = [b].
  Proof.
    intros Ha H. split.
    - destruct a; try reflexivity. cbn. destruct (binop_eqb o o0) eqn:E; [|reflexivity]. apply binop_eqb_eq in E. subst. now destruct (Ha a1 a2).
    - destruct b; try reflexivity. cbn. destruct (binop_eqb o o0) eqn:E; [|reflexivity]. apply binop_eqb_eq in E. subst.
      exfalso. destruct a; try discriminate H. apply le_bin_inv in H. destruct H as (? & ? & E & _). injection E as -> <- <-. now destruct (Ha a1 a2).
  Qed.
  Lemma le_flat (a : expr) : forall b o, commutative o -> le a b -> forall x, In x (flat o a) -> exists y, In y (flat o b) /\ le x y.
  Proof.
    assert (Leaf : forall (a b : expr) o, (forall p q, a <> EBin o p q) -> le a b -> forall x, In x (flat o a) -> exists y, In y (flat o b) /\ le x y).
    { intros a0 b o Ha H x Hx. destruct (le_leaf_flat _ _ _ Ha H) as [E1 E2]. rewrite E1 in Hx. destruct Hx as [<-|[]].
      rewrite E2. exists b. split; [now left|exact H]. }
    induction a as [| | | | | | |o' l IHl r IHr|o' l IHl]; intros b o Ho H z Hz; try (eapply Leaf; [|exact H|exact Hz]; intros; discriminate).
    destruct (binop_eqb o o') eqn:E.
    - apply binop_eqb_eq in E. subst o'. apply le_bin_inv in H. destruct H as (l' & r' & -> & H). cbn [flat] in *. rewrite binop_eqb_refl in *.
      destruct H as [[H1 H2]|[_ H]].
      + apply in_app_iff in Hz. destruct Hz as [Hz|Hz]; [destruct (IHl _ _ Ho H1 _ Hz) as (y & Hy & E)|destruct (IHr _ _ Ho H2 _ Hz) as (y & Hy & E)];
          exists y; rewrite in_app_iff; auto.
      + now apply H.
    - apply (Leaf (EBin o' l r) b o); auto. intros p q Q. injection Q as -> _ _. rewrite binop_eqb_refl in E. discriminate.
  Qed.
  Lemma le_assoc o (l r b : expr) : commutative o -> le (EBin o l r) b -> exists l' r', b = EBin o l' r' /\
    forall x, In x (flatten o l r) -> exists y, In y (flatten o l' r') /\ le x y.
  Proof.
    intros Ho H. assert (F := le_flat _ _ o Ho H). apply le_bin_inv in H. destruct H as (l' & r' & -> & _).
    exists l', r'. split; [reflexivity|]. cbn [flat] in F. rewrite binop_eqb_refl in F. exact F.
  Qed.
  Lemma le_assoc_intro o (l r l' r' : expr) : commutative o -> no_pi (EBin o l r) ->
    (forall x, In x (flatten o l r) -> exists y, In y (flatten o l' r') /\ le x y) -> le (EBin o l r) (EBin o l' r').
  Proof.
    intros Ho Hp H. unfold le. rewrite equals_bin, binop_eqb_refl. destruct Hp as [_ [Hl Hr]].
    assert (T1 := equals_total l l' Hl). assert (T2 := equals_total r r' Hr).
    destruct (equals l l') as [x|]; [|congruence]. destruct (equals r r') as [y|]; [|congruence].
    destruct (x && y); [reflexivity|]. rewrite assoc_commut, (proj2 (commut_commutative o) Ho).
    apply all_found_intro; [|exact H]. unfold flatten. apply Forall_app. split; now apply forall_sub_flat.
  Qed.
  Lemma le_bin_intro o (l r l' r' : expr) : le l l' -> le r r' -> le (EBin o l r) (EBin o l' r').
  Proof. unfold le. intros H1 H2. now rewrite equals_bin, binop_eqb_refl, H1, H2. Qed.
  Lemma le_un_inv o (x b : expr) : le (EUn o x) b -> exists y, b = EUn o y /\ le x y.
  Proof.
    unfold le. rewrite equals_un. destruct b; try discriminate. destruct (unop_eqb o o0) eqn:E; [|discriminate].
    apply unop_eqb_eq in E. subst. eauto.
  Qed.
  Lemma le_un_intro o (x y : expr) : le x y -> le (EUn o x) (EUn o y).
  Proof. unfold le. rewrite equals_un. now rewrite unop_eqb_refl. Qed.

  Lemma all_eqb_trans d : forall d' d'' : list num, all_eqb d d' = true -> all_eqb d' d'' = true -> all_eqb d d'' = true.
  Proof.
    induction d as [|x d IH]; intros [|y d'] [|z d'']; cbn; try discriminate; auto. intros H1 H2.
    apply andb_prop in H1, H2. apply andb_true_intro. split; [eapply eqb_trans; [apply H1|apply H2]|eapply IH; [apply H1|apply H2]].
  Qed.

  Lemma le_trans : forall n (a b c : expr), esize a <= n -> no_pi a -> le a b -> le b c -> le a c.
  Proof.
    induction n as [|n IH]; intros a b c Hs Hp H1 H2; [pose proof (esize_pos a); lia|].
    destruct a as [x| |x| | | |r k d|o l r|o l].
    - unfold le, equals in *. destruct b; try discriminate. destruct c; try discriminate. cbn in *. f_equal.
      injection H1 as H1. injection H2 as H2. eauto.
    - unfold le, equals in *. destruct b; try discriminate. exact H2.
    - unfold le, equals in *. destruct b; try discriminate. cbn in H1. injection H1 as H1. apply String.eqb_eq in H1. now subst.
    - discriminate.
    - unfold le, equals in *. destruct b; try discriminate. exact H2.
    - destruct Hp as [Hp _]. congruence.
    - unfold le, equals in *. destruct b; try discriminate. destruct c; try discriminate. cbn in *. f_equal.
      injection H1 as H1. injection H2 as H2. apply andb_prop in H1, H2. destruct H1 as [H1 H1'], H2 as [H2 H2'].
      apply andb_prop in H1, H2. destruct H1 as [A1 A2], H2 as [B1 B2]. apply Nat.eqb_eq in A1, A2, B1, B2. subst.
      rewrite !Nat.eqb_refl. cbn. eapply all_eqb_trans; eassumption.
    - destruct (commut o) eqn:C.
      + apply commut_commutative in C. destruct (le_assoc _ _ _ _ C H1) as (l' & r' & -> & F1).
        destruct (le_assoc _ _ _ _ C H2) as (l'' & r'' & -> & F2). apply le_assoc_intro; auto.
        intros x Hx. destruct (F1 x Hx) as (y & Hy & E1). destruct (F2 y Hy) as (z & Hz & E2). exists z. split; [exact Hz|].
        apply (IH x y z); auto; [apply flatten_esize in Hx; lia|]. destruct Hp as [_ [Hl Hr]].
        unfold flatten in Hx. apply in_app_iff in Hx. destruct Hx as [Hx|Hx].
        * assert (F := forall_sub_flat _ o l Hl). rewrite Forall_forall in F. now apply F.
        * assert (F := forall_sub_flat _ o r Hr). rewrite Forall_forall in F. now apply F.
      + assert (NC : ~ commutative o) by (intros K; apply commut_commutative in K; congruence).
        apply le_bin_inv in H1. destruct H1 as (l' & r' & -> & [[H1 H1']|[K _]]); [|contradiction].
        apply le_bin_inv in H2. destruct H2 as (l'' & r'' & -> & [[H2 H2']|[K _]]); [|contradiction].
        cbn in Hs. destruct Hp as [_ [Hl Hr]]. apply le_bin_intro; [apply (IH l l' l'')|apply (IH r r' r'')]; auto; lia.
    - apply le_un_inv in H1. destruct H1 as (y & -> & H1). apply le_un_inv in H2. destruct H2 as (z & -> & H2).
      cbn in Hs. destruct Hp as [_ Hl]. apply le_un_intro, (IH l y z); auto. lia.
  Qed.

  Lemma all_eqb_forall2 d : forall d' : list num, all_eqb d d' = true -> Forall2 (fun x y => n_eqb x y = true) d d'.
  Proof. induction d as [|x d IH]; intros [|y d'] H; try discriminate; constructor; cbn in H; apply andb_prop in H; [tauto|now apply IH]. Qed.
  Lemma forall2_all_eqb (d d' : list num) : Forall2 (fun x y => n_eqb x y = true) d d' -> all_eqb d d' = true.
  Proof. induction 1 as [|x y d d' H _ IH]; [reflexivity|]. cbn. now rewrite H, IH. Qed.

  Lemma le_covered : forall n (a b : expr), esize a <= n -> no_pi a -> (le a b <-> covered a b).
  Proof.
    induction n as [|n IH]; intros a b Hs Hp; [pose proof (esize_pos a); lia|]. split.
    - intros H. destruct a as [x| |x| | | |r k d|o l r|o l].
      + unfold le, equals in H. destruct b; try discriminate. injection H as H. now constructor.
      + unfold le, equals in H. destruct b; try discriminate. constructor.
      + unfold le, equals in H. destruct b; try discriminate. injection H as H. apply String.eqb_eq in H. subst. constructor.
      + discriminate.
      + unfold le, equals in H. destruct b; try discriminate. constructor.
      + unfold le, equals in H. destruct b; try discriminate. constructor.
      + unfold le, equals in H. destruct b; try discriminate. injection H as H. apply andb_prop in H. destruct H as [H H'].
        apply andb_prop in H. destruct H as [A1 A2]. apply Nat.eqb_eq in A1, A2. subst. apply cv_mat. now apply all_eqb_forall2.
      + destruct (commut o) eqn:C.
        * apply commut_commutative in C. destruct (le_assoc _ _ _ _ C H) as (l' & r' & -> & F). apply cv_node; [exact C|].
          intros x Hx. destruct (F x Hx) as (y & Hy & L). exists y. split; [exact Hy|]. apply IH; auto.
          -- apply flatten_esize in Hx. lia.
          -- destruct Hp as [_ [Hl Hr]]. assert (F' : Forall no_pi (flatten o l r)) by (apply Forall_app; split; now apply forall_sub_flat).
             rewrite Forall_forall in F'. now apply F'.
        * assert (NC : ~ commutative o) by (intros K; apply commut_commutative in K; congruence).
          apply le_bin_inv in H. destruct H as (l' & r' & -> & [[H H']|[K _]]); [|contradiction].
          cbn in Hs. destruct Hp as [_ [? ?]]. apply cv_bin; [exact NC| |]; apply IH; auto; lia.
      + apply le_un_inv in H. destruct H as (y & -> & H). cbn in Hs. destruct Hp as [_ ?]. apply cv_un, IH; auto. lia.
    - intros H. destruct H as [x y H|r c d d' H|x| | | |o a a' H|o a a' b b' Ho H1 H2|o a a' b b' Ho H].
      + unfold le, equals. cbn. now rewrite H.
      + unfold le, equals. cbn. rewrite !Nat.eqb_refl. cbn. f_equal. now apply forall2_all_eqb.
      + unfold le, equals. cbn. now rewrite String.eqb_refl.
      + reflexivity.
      + reflexivity.
      + reflexivity.
      + cbn in Hs. destruct Hp as [_ ?]. apply le_un_intro, IH; auto. lia.
      + cbn in Hs. destruct Hp as [_ [? ?]]. apply le_bin_intro; apply IH; auto; lia.
      + apply le_assoc_intro; auto. intros x Hx. destruct (H x Hx) as (y & Hy & L). exists y. split; [exact Hy|]. apply IH; auto.
        * apply flatten_esize in Hx. lia.
        * destruct Hp as [_ [Hl Hr]]. assert (F' : Forall no_pi (flatten o a b)) by (apply Forall_app; split; now apply forall_sub_flat).
          rewrite Forall_forall in F'. now apply F'.
  Qed.

  (** ** Both ways *)

  Lemma matching (le : expr -> expr -> Prop) (P : expr -> Prop) : (forall a b c, P a -> le a b -> le b c -> le a c) -> forall xs ys,
    Forall P xs -> Forall P ys ->
    ForallOrdPairs (fun x y => ~ le x y /\ ~ le y x) xs -> ForallOrdPairs (fun x y => ~ le x y /\ ~ le y x) ys ->
    (forall x, In x xs -> exists y, In y ys /\ le x y) -> (forall y, In y ys -> exists x, In x xs /\ le y x) ->
    exists ys', Permutation ys ys' /\ Forall2 (fun x y => le x y /\ le y x) xs ys'.
  Proof.
    intros Tr. induction xs as [|x xs IH]; intros ys Px Py Ox Oy Fx Fy.
    - destruct ys as [|y ys]; [exists []; auto|]. destruct (Fy y (or_introl eq_refl)) as (x & [] & _).
    - destruct (Fx x (or_introl eq_refl)) as (y & Hy & Lxy). destruct (Fy y Hy) as (x' & Hx' & Lyx').
      inversion Px as [|? ? Px1 Px2]; subst. inversion Ox as [|? ? Ox1 Ox2]; subst. rewrite Forall_forall in Ox1.
      assert (Ex : x' = x). { destruct Hx' as [<-|Hx']; [reflexivity|]. exfalso. apply (proj1 (Ox1 _ Hx')). apply (Tr x y x'); auto. }
      subst x'. apply in_split in Hy. destruct Hy as (l1 & l2 & ->).
      assert (Py' := Py). apply Forall_app in Py. destruct Py as [Py1 Py2]. inversion Py2 as [|? ? Pyy Py3]; subst.
      assert (Perm : Permutation (l1 ++ y :: l2) (y :: l1 ++ l2)) by (symmetry; apply Permutation_middle).
      assert (Oy' : ForallOrdPairs (fun x y => ~ le x y /\ ~ le y x) (y :: l1 ++ l2)).
      { clear - Oy. induction l1 as [|z l1 IH]; [exact Oy|]. inversion Oy as [|? ? O1 O2]; subst.
        specialize (IH O2). inversion IH as [|? ? I1 I2]; subst. rewrite Forall_forall in O1, I1.
        constructor; [|constructor; [|exact I2]]; rewrite Forall_forall.
        - intros w [<-|Hw]; [|now apply I1]. destruct (O1 y); [apply in_app_iff; right; now left|]. auto.
        - intros w Hw. apply O1. rewrite in_app_iff in *. cbn. tauto. }
      inversion Oy' as [|? ? Oy1 Oy2]; subst. rewrite Forall_forall in Oy1.
      destruct (IH (l1 ++ l2)) as (ys' & Hp & HF); auto.
      + apply Forall_app; auto.
      + intros x1 Hx1. destruct (Fx x1 (or_intror Hx1)) as (y1 & Hy1 & L1).
        apply (Permutation_in _ Perm) in Hy1. destruct Hy1 as [<-|Hy1]; [|eauto].
        exfalso. apply (proj2 (Ox1 x1 Hx1)). rewrite Forall_forall in Px2. apply (Tr x1 y x); auto.
      + intros y1 Hy1. destruct (Fy y1) as (x1 & Hx1 & L1); [apply (Permutation_in _ (Permutation_sym Perm)); now right|].
        destruct Hx1 as [<-|Hx1]; [|eauto]. exfalso. apply (proj2 (Oy1 y1 Hy1)). apply (Tr y1 x y); auto.
        rewrite Forall_forall in Py'. apply Py'. apply (Permutation_in _ (Permutation_sym Perm)). now right.
      + exists (y :: ys'). split; [|constructor; auto]. eapply perm_trans; [exact Perm|]. now constructor.
  Qed.

  (** Right-nested form. *)
  Fixpoint nested (o : binop) (l : list expr) : expr :=
    match l with [] => EUndef | [e] => e | e :: l => EBin o e (nested o l) end.
  Lemma nested_cons o (e : expr) l : l <> [] -> nested o (e :: l) = EBin o e (nested o l).
  Proof. now destruct l. Qed.
  Lemma nested_app o (l l' : list expr) : commutative o -> l <> [] -> l' <> [] ->
    rearranged (nested o (l ++ l')) (EBin o (nested o l) (nested o l')).
  Proof.
    intros Ho Hl Hl'. induction l as [|e l IH]; [congruence|]. destruct l as [|f l].
    - change ([e] ++ l') with (e :: l'). rewrite nested_cons by exact Hl'. apply ra_refl.
    - change ((e :: f :: l) ++ l') with (e :: ((f :: l) ++ l')). rewrite (nested_cons o e ((f :: l) ++ l')) by discriminate.
      rewrite (nested_cons o e (f :: l)) by discriminate.
      eapply ra_trans; [apply ra_bin; [apply ra_refl|apply IH; discriminate]|]. now apply ra_sym, ra_assoc.
  Qed.
  Lemma flat_nonempty o (e : expr) : flat o e <> [].
  Proof.
    induction e as [| | | | | | |o' p IHp q IHq|o' p IHp]; try discriminate. cbn. destruct (binop_eqb o o'); [|discriminate].
    intros H. apply app_eq_nil in H. tauto.
  Qed.
  Lemma flat_nested o : commutative o -> forall e : expr, rearranged e (nested o (flat o e)).
  Proof.
    intros Ho. induction e as [| | | | | | |o' p IHp q IHq|o' p IHp]; try apply ra_refl.
    cbn [flat]. destruct (binop_eqb o o') eqn:E; [|apply ra_refl]. apply binop_eqb_eq in E. subst o'.
    eapply ra_trans; [apply ra_bin; [exact IHp|exact IHq]|]. apply ra_sym, nested_app; auto using flat_nonempty.
  Qed.
  Lemma nested_map o (l l' : list expr) : Forall2 rearranged l l' -> rearranged (nested o l) (nested o l').
  Proof.
    induction 1 as [|e f l l' H H2 IH]; [apply ra_refl|]. destruct H2; [exact H|]. cbn [nested] in *. apply ra_bin; [exact H|exact IH].
  Qed.
  Lemma nested_perm o (l l' : list expr) : commutative o -> Permutation l l' -> rearranged (nested o l) (nested o l').
  Proof.
    intros Ho. induction 1 as [|e l l' P IH|e f l|l l' l'' _ IH1 _ IH2].
    - apply ra_refl.
    - destruct l as [|x l]; [apply Permutation_nil in P; subst; apply ra_refl|].
      destruct l' as [|y l']; [apply Permutation_sym, Permutation_nil in P; discriminate|].
      rewrite !(nested_cons o e) by discriminate. apply ra_bin; [apply ra_refl|exact IH].
    - destruct l as [|x l]; [now apply ra_comm|].
      rewrite (nested_cons o f (e :: x :: l)), (nested_cons o e (f :: x :: l)), (nested_cons o e (x :: l)), (nested_cons o f (x :: l)) by discriminate.
      eapply ra_trans; [apply ra_sym; now apply ra_assoc|]. eapply ra_trans; [|now apply ra_assoc].
      apply ra_bin; [now apply ra_comm|apply ra_refl].
    - eapply ra_trans; eassumption.
  Qed.

  Lemma tidy_flat o (a b : expr) : tidy (EBin o a b) -> Forall tidy (flatten o a b).
  Proof. intros [_ [Ha Hb]]. apply Forall_app. split; now apply forall_sub_flat. Qed.
  Lemma nopi_flat o (a b : expr) : no_pi (EBin o a b) -> Forall no_pi (flatten o a b).
  Proof. intros [_ [Ha Hb]]. apply Forall_app. split; now apply forall_sub_flat. Qed.

  Lemma both_rearranged : forall n (a b : expr), esize a <= n -> no_pi a -> no_pi b -> tidy a -> tidy b ->
    le a b -> le b a -> rearranged a b.
  Proof.
    induction n as [|n IH]; intros a b Hs Pa Pb Ta Tb H1 H2; [pose proof (esize_pos a); lia|].
    destruct a as [x| |x| | | |r k d|o l r|o l].
    - unfold le, equals in H1. destruct b; try discriminate. cbn in H1. injection H1 as H1. now apply ra_real.
    - unfold le, equals in H1. destruct b; try discriminate. apply ra_refl.
    - unfold le, equals in H1. destruct b; try discriminate. cbn in H1. injection H1 as H1. apply String.eqb_eq in H1. subst. apply ra_refl.
    - discriminate.
    - unfold le, equals in H1. destruct b; try discriminate. apply ra_refl.
    - unfold le, equals in H1. destruct b; try discriminate. apply ra_refl.
    - unfold le, equals in H1. destruct b; try discriminate. cbn in H1.
      injection H1 as H1. apply andb_prop in H1. destruct H1 as [H1 H1'].
      apply andb_prop in H1. destruct H1 as [A1 A2]. apply Nat.eqb_eq in A1, A2. subst.
      apply ra_mat. now apply all_eqb_forall2.
    - destruct (commut o) eqn:C.
      + apply commut_commutative in C. destruct (le_assoc _ _ _ _ C H1) as (l' & r' & -> & F1).
        destruct (le_assoc _ _ _ _ C H2) as (l0 & r0 & E & F2). injection E as <- <-.
        assert (Oa := proj1 Ta C). assert (Ob := proj1 Tb C).
        destruct (matching le no_pi (fun a b c => le_trans (esize a) a b c (le_n _)) (flatten o l r) (flatten o l' r'))
          as (ys & HP & HF); auto using nopi_flat.
        assert (R2 : Forall2 rearranged (flatten o l r) ys).
        { assert (S1 : forall x, In x (flatten o l r) -> esize x <= n) by (intros x Hx; apply flatten_esize in Hx; lia).
          assert (Fa := tidy_flat _ _ _ Ta). assert (Fp := nopi_flat _ _ _ Pa).
          assert (Gb : Forall tidy ys). { rewrite Forall_forall. intros y Hy. apply (Permutation_in _ (Permutation_sym HP)) in Hy.
            assert (F := tidy_flat _ _ _ Tb). rewrite Forall_forall in F. now apply F. }
          assert (Gp : Forall no_pi ys). { rewrite Forall_forall. intros y Hy. apply (Permutation_in _ (Permutation_sym HP)) in Hy.
            assert (F := nopi_flat _ _ _ Pb). rewrite Forall_forall in F. now apply F. }
          clear - IH HF S1 Fa Fp Gb Gp. induction HF as [|x y xs ys [L1 L2] _ IHF]; constructor.
          - inversion Fa; inversion Fp; inversion Gb; inversion Gp; subst. apply IH; auto. apply S1. now left.
          - inversion Fa; inversion Fp; inversion Gb; inversion Gp; subst. apply IHF; auto. intros z Hz. apply S1. now right. }
        assert (Na := flat_nested o C (EBin o l r)). assert (Nb := flat_nested o C (EBin o l' r')).
        cbn [flat] in Na, Nb. rewrite binop_eqb_refl in Na, Nb.
        eapply ra_trans; [exact Na|]. eapply ra_trans; [apply nested_map; exact R2|].
        eapply ra_trans; [apply (nested_perm o ys _ C (Permutation_sym HP))|]. apply ra_sym. exact Nb.
      + assert (NC : ~ commutative o) by (intros K; apply commut_commutative in K; congruence).
        apply le_bin_inv in H1. destruct H1 as (l' & r' & -> & [[H1 H1']|[K _]]); [|contradiction].
        apply le_bin_inv in H2. destruct H2 as (l0 & r0 & E & [[H2 H2']|[K _]]); [|contradiction]. injection E as <- <-.
        cbn in Hs. destruct Pa as [_ [? ?]], Pb as [_ [? ?]], Ta as [_ [? ?]], Tb as [_ [? ?]].
        apply ra_bin; apply IH; auto; lia.
    - apply le_un_inv in H1. destruct H1 as (y & -> & H1). apply le_un_inv in H2. destruct H2 as (z & E & H2). injection E as <-.
      cbn in Hs. destruct Pa as [_ ?], Pb as [_ ?], Ta as [_ ?], Tb as [_ ?]. apply ra_un, IH; auto. lia.
  Qed.

  (** ** Rearranged expressions are Equal *)

  Definition proper (e : expr) : Prop := no_pi e /\ no_undef e /\ no_nan e.
  Lemma proper_bin o (a b : expr) : proper (EBin o a b) <-> proper a /\ proper b.
  Proof.
    unfold proper, no_pi, no_undef, no_nan. cbn [forall_sub]. split; [tauto|]. intros H.
    repeat split; try tauto; discriminate.
  Qed.
  Lemma proper_un o (a : expr) : proper (EUn o a) <-> proper a.
  Proof.
    unfold proper, no_pi, no_undef, no_nan. cbn [forall_sub]. split; [tauto|]. intros H. repeat split; try tauto; discriminate.
  Qed.
  Lemma proper_real c : proper (EReal c) <-> n_eqb c c = true.
  Proof. unfold proper, no_pi, no_undef, no_nan. cbn [forall_sub]. intuition; discriminate. Qed.
  Lemma proper_mat r c d : proper (EMat r c d) <-> Forall (fun c => n_eqb c c = true) d.
  Proof. unfold proper, no_pi, no_undef, no_nan. cbn [forall_sub]. intuition; discriminate. Qed.
  Lemma eqb_self x y : n_eqb x y = true -> n_eqb x x = true /\ n_eqb y y = true.
  Proof. intros H. assert (K := H). rewrite eqb_sym in K. split; eapply eqb_trans; eassumption. Qed.
  Lemma forall2_self d d' : Forall2 (fun x y => n_eqb x y = true) d d' ->
    Forall (fun c => n_eqb c c = true) d /\ Forall (fun c => n_eqb c c = true) d'.
  Proof. induction 1 as [|x y d d' H _ [IH1 IH2]]; [auto|]. apply eqb_self in H. destruct H. auto. Qed.
  Lemma forall2_sym d d' : Forall2 (fun x y => n_eqb x y = true) d d' -> Forall2 (fun x y => n_eqb x y = true) d' d.
  Proof. induction 1; constructor; auto. now rewrite eqb_sym. Qed.

  Lemma rearranged_both (a b : expr) : rearranged a b -> (proper a <-> proper b) /\ (proper a -> le a b /\ le b a).
  Proof.
    assert (Perm : forall o a b a' b', commutative o -> (forall x, In x (flatten o a b) <-> In x (flatten o a' b')) ->
      (proper (EBin o a b) <-> proper (EBin o a' b')) -> Permutation (flatten o a b) (flatten o a' b') ->
      proper (EBin o a b) -> le (EBin o a b) (EBin o a' b') /\ le (EBin o a' b') (EBin o a b)).
    { intros o a0 b0 a' b' Ho _ Hp P H. assert (H' : proper (EBin o a' b')) by now apply Hp. destruct H as (? & ? & ?), H' as (? & ? & ?).
      split; apply equals_perm; auto. now apply Permutation_sym. }
    induction 1 as [e|a b _ [I1 I2]|a b c _ [I1 I2] _ [J1 J2]|x y H|r c d d' H|o a a' b b' _ [I1 I2] _ [J1 J2]|o a a' _ [I1 I2]|o a b Ho|o a b c Ho].
    - split; [tauto|]. intros (? & ? & ?). split; now apply equals_refl.
    - split; [tauto|]. intros H. destruct I2; tauto.
    - split; [tauto|]. intros H. destruct I2 as [K1 K2]; [exact H|]. destruct J2 as [L1 L2]; [tauto|]. split.
      + apply (le_trans (esize a) a b c); auto. apply H.
      + apply (le_trans (esize c) c b a); auto. assert (proper c) by tauto. apply H0.
    - split; [rewrite !proper_real; apply eqb_self in H; tauto|]. intros _.
      unfold le, equals. cbn. rewrite H, eqb_sym, H. auto.
    - split; [rewrite !proper_mat; apply forall2_self in H; tauto|]. intros _.
      unfold le, equals. cbn. rewrite !Nat.eqb_refl. cbn. split; f_equal; apply forall2_all_eqb; auto using forall2_sym.
    - rewrite !proper_bin. split; [tauto|]. intros [Ha Hb]. destruct (I2 Ha), (J2 Hb). split; now apply le_bin_intro.
    - rewrite !proper_un. split; [tauto|]. intros Ha. destruct (I2 Ha). split; now apply le_un_intro.
    - assert (Hp : proper (EBin o a b) <-> proper (EBin o b a)) by (rewrite !proper_bin; tauto). split; [exact Hp|].
      assert (P : Permutation (flatten o a b) (flatten o b a)) by apply Permutation_app_comm.
      apply Perm; auto. intros x. split; apply Permutation_in; auto using Permutation_sym.
    - assert (Hp : proper (EBin o (EBin o a b) c) <-> proper (EBin o a (EBin o b c))) by (rewrite !proper_bin; tauto). split; [exact Hp|].
      assert (P : Permutation (flatten o (EBin o a b) c) (flatten o a (EBin o b c))).
      { unfold flatten. cbn [flat]. rewrite binop_eqb_refl, app_assoc. apply Permutation_refl. }
      apply Perm; auto. intros x. split; apply Permutation_in; auto using Permutation_sym.
  Qed.
End Equal.

(** ** Rearranged expressions have the same value *)

Section Value.
  Context {num : Type} {N : NumOps num}.
  Notation expr := (expr num).
  Variable toR : num -> R.
  Hypothesis same_number : forall x y : num, n_eqb x y = true -> toR x = toR y.

  Definition var_of (e : expr) : option string := match e with EVar x => Some x | _ => None end.
  Lemma rearranged_value (a b : expr) : rearranged a b -> var_of a = var_of b /\ forall rho v, ev toR a rho v <-> ev toR b rho v.
  Proof.
    induction 1 as [e|a b _ [L IH]|a b c _ [L1 IH1] _ [L2 IH2]|x y H|r c d d' H|o a a' b b' _ [La IHa] _ [Lb IHb]|o a a' _ [La IHa]|o a b Ho|o a b c Ho].
    - split; [reflexivity|tauto].
    - split; [auto|]. intros. symmetry. apply IH.
    - split; [congruence|]. intros. rewrite IH1. apply IH2.
    - split; [reflexivity|]. intros. cbn [ev]. rewrite (same_number _ _ H). tauto.
    - split; [reflexivity|]. intros. cbn [ev]. tauto.
    - split; [reflexivity|]. intros rho v.
      assert (Two : forall P : C -> C -> Prop, (exists p q, ev toR a rho p /\ ev toR b rho q /\ P p q) <->
                                               (exists p q, ev toR a' rho p /\ ev toR b' rho q /\ P p q)).
      { intros P. split; intros (p & q & Hp & Hq & HP); exists p, q; (split; [now apply IHa|split; [now apply IHb|exact HP]]). }
      destruct o; cbn [ev]; try apply Two; [|tauto].
      destruct b, b'; cbn in Lb; try discriminate; try tauto. injection Lb as <-.
      split; intros (h & d & H1 & H2); exists h, d; (split; [|exact H2]); apply (filter_imp _ _ (fun t Ht => proj1 (IHa _ _) Ht) H1) ||
        apply (filter_imp _ _ (fun t Ht => proj2 (IHa _ _) Ht) H1).
    - split; [reflexivity|]. intros rho v. destruct o; cbn [ev]; split; intros (w & Hw & E); exists w; (split; [now apply IHa|exact E]).
    - split; [reflexivity|]. intros rho v. destruct Ho as [->|[->| ->]]; cbn [ev]; try tauto;
        (split; intros (p & q & Hp & Hq & ->); exists q, p; (split; [exact Hq|split; [exact Hp|ring]])).
    - split; [reflexivity|]. intros rho v. destruct Ho as [->|[->| ->]]; cbn [ev]; try tauto; split.
      + intros (p & q & (s & t & Hs & Ht & ->) & Hq & ->). exists s, (Cplus t q). split; [exact Hs|]. split; [eauto 6|]. ring.
      + intros (p & q & Hp & (s & t & Hs & Ht & ->) & ->). exists (Cplus p s), t. split; [eauto 6|]. split; [exact Ht|]. ring.
      + intros (p & q & (s & t & Hs & Ht & ->) & Hq & ->). exists s, (Cmult t q). split; [exact Hs|]. split; [eauto 6|]. ring.
      + intros (p & q & Hp & (s & t & Hs & Ht & ->) & ->). exists (Cmult p s), t. split; [eauto 6|]. split; [exact Ht|]. ring.
  Qed.
End Value.
