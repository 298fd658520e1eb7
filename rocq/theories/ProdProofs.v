(** Proofs about products of integer powers (SpecProd.v). *)
From Coq Require Import String Bool Arith ZArith List Lia Permutation.
From Verif Require Import Base Num Expr Ghost Simplify Calculus Spec SpecPoly SpecProd TreeProofs MonadProofs FuelProofs PolyProofs.
Import ListNotations.
Open Scope Z_scope.
Open Scope list_scope.

(** ** Lists of factors *)
Lemma name_eqb_eq a b : name_eqb a b = true <-> a = b.
Proof.
  destruct a as [x|], b as [y|]; simpl; split; intros H; try discriminate; auto.
  - apply String.eqb_eq in H. congruence.
  - injection H as ->. apply String.eqb_refl.
Qed.
Lemma name_eqb_refl a : name_eqb a a = true.
Proof. now apply name_eqb_eq. Qed.
Lemma name_eqb_neq a b : name_eqb a b = false <-> a <> b.
Proof. rewrite <- name_eqb_eq. destruct (name_eqb a b); split; congruence. Qed.

Lemma join_unit_l n a : join n (unit n) a = a.
Proof. destruct n; cbn -[Z.mul Z.add]; lia. Qed.
Lemma join_unit_r n a : join n a (unit n) = a.
Proof. destruct n; cbn -[Z.mul Z.add]; lia. Qed.
Lemma join_comm n a b : join n a b = join n b a.
Proof. destruct n; cbn -[Z.mul Z.add]; lia. Qed.
Lemma join_assoc n a b c : join n a (join n b c) = join n (join n a b) c.
Proof. destruct n; cbn -[Z.mul Z.add]; lia. Qed.
Lemma amount_cons n f fs : amount n (f :: fs) = if name_eqb n (fst f) then join n (snd f) (amount n fs) else amount n fs.
Proof. reflexivity. Qed.
Lemma amount_nil n : amount n [] = unit n.
Proof. reflexivity. Qed.
Lemma amount_app n a b : amount n (a ++ b) = join n (amount n a) (amount n b).
Proof.
  induction a as [|f a IH]; [cbn [app]; rewrite amount_nil; now rewrite join_unit_l|].
  cbn [app]. rewrite !amount_cons, IH. destruct (name_eqb n (fst f)); [apply join_assoc|reflexivity].
Qed.
Lemma amount_swap n a b : amount n (a ++ b) = amount n (b ++ a).
Proof. rewrite !amount_app. apply join_comm. Qed.
Lemma amount_one n f : amount n [f] = if name_eqb n (fst f) then snd f else unit n.
Proof. rewrite amount_cons, amount_nil, join_unit_r. reflexivity. Qed.
Lemma names_app a b : names (a ++ b) = names a ++ names b.
Proof. apply map_app. Qed.
Lemma amount_notin n fs : ~ In n (names fs) -> amount n fs = unit n.
Proof.
  induction fs as [|f fs IH]; intros H; [reflexivity|]. rewrite amount_cons. cbn [names map In] in H.
  destruct (name_eqb n (fst f)) eqn:E; [apply name_eqb_eq in E; exfalso; apply H; left; congruence|]. apply IH. tauto.
Qed.
Lemma amount_nodup n k fs : NoDup (names fs) -> In (n, k) fs -> amount n fs = k.
Proof.
  induction fs as [|f fs IH]; intros H Hi; [contradiction|]. cbn [names map] in H. fold (names fs) in H.
  inversion H as [|? ? Hn Hd]; subst. rewrite amount_cons. destruct Hi as [->|Hi]; cbn [fst snd] in *.
  - rewrite name_eqb_refl, amount_notin by assumption. apply join_unit_r.
  - rewrite (IH Hd Hi). destruct (name_eqb n (fst f)) eqn:E; [|reflexivity]. apply name_eqb_eq in E. subst n.
    exfalso. apply Hn. unfold names. change (fst f) with (fst (fst f, k)). now apply in_map.
Qed.

(** Numbers are not 0, exponents are positive. *)
Definition fine (f : factor) : Prop := match fst f with None => snd f <> 0 | Some _ => 0 < snd f end.
Lemma amount_fine n fs : Forall fine fs -> match n with None => amount n fs <> 0 | Some _ => 0 <= amount n fs end.
Proof.
  intros H. induction H as [|f fs Hf H IH]; [destruct n; rewrite amount_nil; cbn; lia|]. rewrite amount_cons.
  destruct (name_eqb n (fst f)) eqn:E; [|exact IH]. apply name_eqb_eq in E. unfold fine in Hf. rewrite <- E in Hf.
  destruct n; cbn -[Z.mul Z.add]; [lia|]. intros K. apply Z.mul_eq_0 in K. tauto.
Qed.
Lemma amount_pos x fs : Forall fine fs -> In (Some x) (names fs) -> 0 < amount (Some x) fs.
Proof.
  intros H. induction H as [|f fs Hf H IH]; intros Hi; [contradiction|]. rewrite amount_cons. cbn [names map In] in Hi.
  pose proof (amount_fine (Some x) fs H) as P. cbn -[amount] in P.
  destruct (name_eqb (Some x) (fst f)) eqn:E.
  - apply name_eqb_eq in E. unfold fine in Hf. rewrite <- E in Hf. cbn -[Z.add amount]. lia.
  - apply IH. destruct Hi as [Hi|Hi]; auto. apply name_eqb_neq in E. congruence.
Qed.
Lemma amount_le n a b : Forall fine b -> Forall fine a -> Z.abs (amount n a) <= Z.abs (amount n (a ++ b)).
Proof.
  intros H Ha. apply (amount_fine n) in H, Ha. rewrite amount_app. destruct n; cbn -[Z.mul Z.add amount]; [lia|].
  rewrite Z.abs_mul. assert (1 <= Z.abs (amount None b)) by lia. nia.
Qed.

(** [settles tr ts]: combining like factors may turn [ts] into [tr]. *)
Definition settles (tr ts : list factor) : Prop :=
  (forall n, amount n tr = amount n ts) /\ (forall n, In n (names tr) -> In n (names ts)).
Lemma settles_refl a : settles a a.
Proof. split; auto. Qed.
Lemma settles_trans a b c : settles a b -> settles b c -> settles a c.
Proof. intros [A1 A2] [B1 B2]. split; [intros n; now rewrite A1|auto]. Qed.
Lemma settles_app a b a' b' : settles a a' -> settles b b' -> settles (a ++ b) (a' ++ b').
Proof.
  intros [A1 A2] [B1 B2]. split.
  - intros n. now rewrite !amount_app, A1, B1.
  - intros n. rewrite !names_app, !in_app_iff. intros [H|H]; auto.
Qed.
Lemma settles_swap a b : settles (a ++ b) (b ++ a).
Proof. split; [intros n; apply amount_swap|]. intros n. rewrite !names_app, !in_app_iff. tauto. Qed.

(** Adding one factor to a list of unlike factors. *)
Fixpoint put (f : factor) (st : list factor) : list factor :=
  match st with
  | [] => [f]
  | g :: st => if name_eqb (fst f) (fst g) then (fst g, join (fst g) (snd g) (snd f)) :: st else g :: put f st
  end.
Lemma amount_put n f st : amount n (put f st) = amount n (st ++ [f]).
Proof.
  induction st as [|g st IH]; [reflexivity|]. cbn [put app].
  destruct (name_eqb (fst f) (fst g)) eqn:E.
  - apply name_eqb_eq in E. rewrite !amount_cons, amount_app, amount_one, E. cbn [fst snd].
    destruct (name_eqb n (fst g)) eqn:F; [|now rewrite join_unit_r]. apply name_eqb_eq in F. subst n.
    rewrite join_assoc, <- (join_assoc _ (snd g)), (join_comm _ (snd f)), join_assoc. reflexivity.
  - rewrite !amount_cons, IH. reflexivity.
Qed.
Lemma names_put_in f st n : In n (names (put f st)) -> In n (names st) \/ n = fst f.
Proof.
  induction st as [|g st IH]; cbn [put names map In]; [intros [H|H]; [right; congruence|contradiction]|].
  destruct (name_eqb (fst f) (fst g)); cbn [names map In fst]; [tauto|]. intros [H|H]; [tauto|]. destruct (IH H); tauto.
Qed.
Lemma put_in_names f st n : In n (names st) \/ n = fst f -> In n (names (put f st)).
Proof.
  induction st as [|g st IH]; cbn [put names map In]; [intros [[]|H]; left; congruence|].
  destruct (name_eqb (fst f) (fst g)) eqn:E; cbn [names map In fst].
  - apply name_eqb_eq in E. intros [[H|H]|H]; auto. left. congruence.
  - intros [[H|H]|H]; auto.
Qed.
Lemma nodup_put f st : NoDup (names st) -> NoDup (names (put f st)).
Proof.
  induction st as [|g st IH]; cbn [put names map]; intros H; [repeat constructor; auto|]. fold (names st) in *.
  inversion H as [|? ? Hn Hd]; subst. destruct (name_eqb (fst f) (fst g)) eqn:E; [exact H|]. cbn [names map]. fold (names (put f st)).
  constructor; [|auto]. intros Hi. apply names_put_in in Hi. destruct Hi as [Hi|Hi]; [tauto|].
  apply name_eqb_neq in E. congruence.
Qed.
Lemma put_new f st : ~ In (fst f) (names st) -> put f st = st ++ [f].
Proof.
  induction st as [|g st IH]; cbn [put names map In app]; intros H; [reflexivity|].
  destruct (name_eqb (fst f) (fst g)) eqn:E; [apply name_eqb_eq in E; exfalso; apply H; left; congruence|].
  rewrite IH; [reflexivity|tauto].
Qed.
Lemma fine_put f st : fine f -> Forall fine st -> Forall fine (put f st).
Proof.
  intros Hf H. induction H as [|g st Hg H IH]; cbn [put]; [auto|].
  destruct (name_eqb (fst f) (fst g)) eqn:E; [|auto]. constructor; auto. apply name_eqb_eq in E. unfold fine in *.
  cbn [fst snd]. rewrite E in Hf. destruct (fst g); cbn -[Z.mul Z.add]; [lia|]. intros K. apply Z.mul_eq_0 in K. tauto.
Qed.
Definition gather (fs st : list factor) : list factor := fold_left (fun st f => put f st) fs st.
Lemma gather_spec fs : forall st, NoDup (names st) -> Forall fine st -> Forall fine fs ->
  NoDup (names (gather fs st)) /\ settles (gather fs st) (st ++ fs) /\ Forall fine (gather fs st) /\
  (forall n, In n (names (st ++ fs)) -> In n (names (gather fs st))).
Proof.
  induction fs as [|f fs IH]; intros st H Hs Hf.
  - cbn [gather fold_left]. rewrite app_nil_r. repeat split; auto.
  - inversion Hf as [|? ? F1 F2]; subst. cbn [gather fold_left]. fold (gather fs (put f st)).
    destruct (IH (put f st) (nodup_put f st H) (fine_put f st F1 Hs) F2) as (A1 & A2 & A3 & A4). repeat split; auto.
    + intros n. rewrite (proj1 A2), !amount_app, amount_put, amount_app. change (f :: fs) with ([f] ++ fs).
      rewrite amount_app. symmetry. apply join_assoc.
    + intros n Hn. apply (proj2 A2) in Hn. rewrite !names_app, !in_app_iff in *. cbn [names map In]. destruct Hn as [Hn|Hn]; auto.
      apply names_put_in in Hn. destruct Hn as [Hn|Hn]; auto.
    + intros n Hn. apply A4. rewrite names_app, in_app_iff in *. cbn [names map In] in Hn. destruct Hn as [Hn|[Hn|Hn]]; auto.
      * left. apply put_in_names. auto.
      * left. apply put_in_names. auto.
Qed.

(** ** The shape of balanced products *)
Section Shape.
  Context {num : Type}.
  Notation E := (expr num).
  Variable o : binop.
  Lemma pair_pass_last (l : list E) : exists l1 : list E,
    (l <> [] -> l1 <> [] \/ exists c, l = [c]) /\
    ((forall y, pair_pass o (l ++ [y]) = l1 ++ [y]) \/ exists c, (forall y, pair_pass o (l ++ [y]) = l1 ++ [EBin o c y]) /\ (l1 = [] -> l = [c])).
  Proof.
    remember (length l) as m eqn:Em. revert l Em. induction m as [m IH] using lt_wf_ind. intros l ->.
    destruct l as [|a [|b l]].
    - exists []. split; [congruence|]. left. reflexivity.
    - exists []. split; [intros _; right; eauto|]. right. exists a. split; reflexivity.
    - destruct (IH (length l) ltac:(cbn; lia) l eq_refl) as (l1 & _ & H). exists (EBin o a b :: l1).
      split; [left; discriminate|]. destruct H as [H|(c & H & K)].
      + left. intros y. cbn. now rewrite H.
      + right. exists c. split; [|discriminate]. intros y. cbn. now rewrite H.
  Qed.
  Lemma build_loop_last n : forall (l : list E) x c y, l <> [] -> build_loop n o (l ++ [x]) = Some (EBin o c y) ->
    (y = x /\ forall x', build_loop n o (l ++ [x']) = Some (EBin o c x')) \/ exists u v, y = EBin o u v.
  Proof.
    induction n as [|n IH]; intros l x c y Hl H; [discriminate|].
    destruct l as [|a l]; [congruence|]. clear Hl.
    assert (Eb : forall z, build_loop (S n) o ((a :: l) ++ [z]) = build_loop n o (pair_pass o ((a :: l) ++ [z]))).
    { intros z. cbn [build_loop app]. destruct (l ++ [z]) eqn:K; [destruct l; discriminate|reflexivity]. }
    rewrite Eb in H. destruct (pair_pass_last (a :: l)) as (l1 & H1 & [H2|(d & H2 & H3)]).
    - rewrite H2 in H. destruct l1 as [|b l1].
      + exfalso. specialize (H2 EPi). destruct l; discriminate H2.
      + apply IH in H; [|discriminate]. destruct H as [[-> H]|H]; [left|now right]. split; auto. intros x'. rewrite Eb, H2. apply H.
    - rewrite H2 in H. destruct l1 as [|b l1].
      + specialize (H3 eq_refl). injection H3 as -> ->. cbn [app] in *. destruct n; [discriminate|]. cbn in H. injection H as -> ->.
        left. split; [reflexivity|]. intros x'. reflexivity.
      + apply IH in H; [|discriminate]. destruct H as [[-> H]|H]; right; eauto.
  Qed.
  Lemma build_last (l : list E) c y : build o l = Some (EBin o c y) -> (forall u v, y <> EBin o u v) ->
    exists l0, l = l0 ++ [y] /\ forall y', build o (l0 ++ [y']) = Some (EBin o c y').
  Proof.
    intros H Hy. destruct l as [|a [|b l]]; try discriminate.
    assert (L : exists l0 x, a :: b :: l = a :: l0 ++ [x]).
    { destruct (exists_last (l := b :: l)) as (l0 & x & ->); [discriminate|]. eauto. }
    destruct L as (l0 & x & L). rewrite L in *.
    assert (Eb : forall z, build o (a :: l0 ++ [z]) = build_loop (length (a :: l0 ++ [z])) o ((a :: l0) ++ [z])).
    { intros z. cbn [build app]. destruct (l0 ++ [z]) eqn:K; [destruct l0; discriminate|reflexivity]. }
    rewrite Eb in H. apply build_loop_last in H; [|discriminate]. destruct H as [[-> H]|(u & v & H)]; [|destruct (Hy u v H)].
    exists (a :: l0). split; [reflexivity|]. intros y'. cbn [app]. rewrite Eb. rewrite <- H. cbn [length]. rewrite !app_length. reflexivity.
  Qed.
  Lemma build_loop_first n : forall u v t (l : list E) c y, build_loop n o (EBin o u v :: t :: l) = Some (EBin o c y) ->
    exists u' v', c = EBin o u' v'.
  Proof.
    induction n as [|n IH]; intros u v t l c y H; [discriminate|]. cbn [build_loop pair_pass] in H.
    destruct (pair_pass o l) as [|s l'] eqn:El.
    - destruct n; [discriminate|]. cbn in H. injection H as <- <-. eauto.
    - eapply IH; eauto.
  Qed.
  Lemma build_first (l : list E) c y : build o l = Some (EBin o c y) -> (forall u v, c <> EBin o u v) -> l = [c; y].
  Proof.
    intros H Hc. destruct l as [|a [|b [|d l]]]; try discriminate.
    - cbn in H. now injection H as -> ->.
    - exfalso. assert (K : exists n t l', build_loop n o (EBin o a b :: t :: l') = Some (EBin o c y)).
      { exists (S (S (length l))). change (build o (a :: b :: d :: l)) with (build_loop (S (S (length l))) o (EBin o a b :: pair_pass o (d :: l))) in H.
        destruct l as [|e l]; cbn [pair_pass] in H; eauto. }
      destruct K as (n & t & l' & K). apply build_loop_first in K. destruct K as (u & v & K). apply (Hc u v K).
  Qed.
End Shape.

(** ** Runs of Simplify *)
Section Runs.
  Context {num : Type} {N : NumOps num}.
  Variables (lit : num -> Z -> Prop) (ok : Z -> Prop).
  Hypothesis IL : IntLits N lit ok.
  Notation E := (expr num).
  Notation power := (power lit).
  Notation fac := (fac lit).
  Notation product := (product lit).
  Variable prefer : bool.

  Local Lemma okle x y : ok x -> Z.abs y <= Z.abs x -> ok y.
  Proof. apply (il_ok_le _ _ _ IL). Qed.
  Local Lemma lit1 : lit n1 1.
  Proof. apply (il_of_Z _ _ _ IL). eapply okle; [apply (il_ok_2 _ _ _ IL)|lia]. Qed.
  Local Lemma lit0 : lit n0 0.
  Proof. apply (il_of_Z _ _ _ IL). eapply okle; [apply (il_ok_2 _ _ _ IL)|lia]. Qed.
  Local Lemma lit2 : lit n2 2.
  Proof. apply (il_of_Z _ _ _ IL). apply (il_ok_2 _ _ _ IL). Qed.
  Local Lemma eqb_lit a b x y : lit a x -> lit b y -> n_eqb a b = (x =? y).
  Proof. apply (il_eqb _ _ _ IL). Qed.
  Local Lemma tiny_lit a x : lit a x -> tiny a = (x =? 0).
  Proof. apply (il_tiny _ _ _ IL). Qed.
  Local Lemma ok1 : ok 1.
  Proof. eapply okle; [apply (il_ok_2 _ _ _ IL)|lia]. Qed.

  Local Lemma bindok {A B} (a : A) (k : A -> M B) : bind ([], Ok a) k = k a.
  Proof. cbn. now destruct (k a). Qed.
  Local Lemma meq_false (a b : E) : equals a b = Some false -> m_eq a b = ([], Ok false).
  Proof. intros H. unfold m_eq. now rewrite H. Qed.

  (** Factors. *)
  Lemma fac_fine e f : fac e f -> fine f.
  Proof. intros H. destruct H; unfold fine; cbn; auto. Qed.
  Lemma facs_fine l fs : Forall2 fac l fs -> Forall fine fs.
  Proof. intros H. induction H; constructor; eauto using fac_fine. Qed.
  Lemma fac_cases e f : fac e f ->
    (exists c z, e = EReal c /\ f = (None, z) /\ lit c z /\ z <> 0 /\ z <> 1) \/
    (exists x, e = EVar x /\ f = (Some x, 1)) \/
    (exists x c k, e = EExp (EVar x) (EReal c) /\ f = (Some x, k) /\ lit c k /\ k <> 1 /\ 0 < k).
  Proof.
    intros H. destruct H as [c z Hc Z0 Z1|p x k Hp K].
    - left. exists c, z. auto.
    - right. destruct Hp as [x|x c k Hc K0 K1]; [left; eauto|right; exists x, c, k; auto].
  Qed.
  Lemma fac_lit c z : lit c z -> z <> 0 -> z <> 1 -> fac (EReal c) (None, z).
  Proof. now constructor. Qed.
  Lemma fac_var x : fac (EVar x) (Some x, 1).
  Proof. constructor; [constructor|lia]. Qed.
  Lemma fac_exp x c k : lit c k -> k <> 1 -> 0 < k -> fac (EExp (EVar x) (EReal c)) (Some x, k).
  Proof. intros. constructor; [constructor; auto; lia|auto]. Qed.
  Lemma fac_flat e f : fac e f -> flat OMul e = [e].
  Proof. intros H. apply fac_cases in H. destruct H as [(c & z & -> & _)|[(x & -> & _)|(x & c & k & -> & _)]]; reflexivity. Qed.
  Lemma fac_not_mul e f : fac e f -> forall u v, e <> EMul u v.
  Proof. intros H u v. apply fac_cases in H. destruct H as [(c & z & -> & _)|[(x & -> & _)|(x & c & k & -> & _)]]; discriminate. Qed.

  Ltac facs H := apply fac_cases in H; destruct H as [(?c & ?z & -> & -> & ?Hc & ?Z0 & ?Z1)|[(?x & -> & ->)|(?x & ?c & ?k & -> & -> & ?Hc & ?K1 & ?K0)]].

  Lemma equals_fac (a b : E) fa fb : fac a fa -> fac b fb ->
    equals a b = Some (name_eqb (fst fa) (fst fb) && (snd fa =? snd fb)) /\
    (fa = fb -> eq_strict a b = true).
  Proof.
    intros Ha Hb. facs Ha; facs Hb; cbn -[String.eqb Z.eqb]; (split; [|intros Hf; try discriminate; injection Hf as Hf; subst]);
      rewrite ?(eqb_lit _ _ _ _ Hc Hc0), ?Z.eqb_refl, ?String.eqb_refl, ?andb_true_r; try reflexivity.
    - assert (K : (1 =? k) = false) by (apply Z.eqb_neq; congruence). now rewrite K, andb_false_r.
    - congruence.
    - apply Z.eqb_neq in K1. now rewrite K1, andb_false_r.
    - congruence.
    - now destruct (String.eqb x x0), (k =? k0).
  Qed.
  Lemma fac_eqb_eq (f g : factor) : name_eqb (fst f) (fst g) && (snd f =? snd g) = true <-> f = g.
  Proof.
    rewrite andb_true_iff, name_eqb_eq, Z.eqb_eq. destruct f, g; cbn. split; [intros [-> ->]; reflexivity|intros H; injection H; auto].
  Qed.
  Lemma m_eq_fac (a b : E) fa fb : fac a fa -> fac b fb ->
    m_eq a b = ([], Ok (name_eqb (fst fa) (fst fb) && (snd fa =? snd fb))).
  Proof.
    intros Ha Hb. destruct (equals_fac a b fa fb Ha Hb) as [H1 H2]. unfold m_eq. rewrite H1.
    destruct (name_eqb _ _ && _) eqn:K; [|reflexivity]. cbn. now rewrite (H2 (proj1 (fac_eqb_eq fa fb) K)).
  Qed.

  Lemma product_flat e fs : product e fs -> Forall2 fac (flat OMul e) fs.
  Proof.
    intros H. induction H as [e f Hf|a b fa fb Ha IHa Hb IHb]; [rewrite (fac_flat e f Hf); auto|].
    cbn. now apply Forall2_app.
  Qed.
  Lemma product_fine e fs : product e fs -> Forall fine fs.
  Proof. intros H. apply product_flat in H. eapply facs_fine; eauto. Qed.
  Lemma product_nonempty e fs : product e fs -> fs <> [].
  Proof. intros H. induction H as [|a b fa fb Ha IHa]; [discriminate|]. destruct fa; [congruence|discriminate]. Qed.

  Lemma find_eq_fac (x : E) f m fm : fac x f -> Forall2 fac m fm ->
    exists q, find_eq (equals x) m = Some q /\ (q = true -> In f fm).
  Proof.
    intros Hx H. induction H as [|y g m fm Hy H IH].
    - exists false. split; [reflexivity|discriminate].
    - destruct (equals_fac x y f g Hx Hy) as [E1 _]. cbn [find_eq]. rewrite E1. destruct (name_eqb _ _ && _) eqn:K.
      + exists true. split; auto. intros _. left. symmetry. now apply fac_eqb_eq.
      + destruct IH as (q & E2 & K2). exists q. split; auto. intros Hq. right. auto.
  Qed.
  Lemma all_found_fac (l : list E) fl m fm : Forall2 fac l fl -> Forall2 fac m fm ->
    exists q, all_found l m = Some q /\ (q = true -> incl fl fm).
  Proof.
    intros Hl Hm. induction Hl as [|x f l fl Hx Hl IH].
    - exists true. split; [reflexivity|]. intros _ k [].
    - destruct (find_eq_fac x f m fm Hx Hm) as (q & E1 & K1). cbn [all_found]. rewrite E1. destruct q.
      + destruct IH as (q & E2 & K2). exists q. split; [exact E2|]. intros Hq k [<-|Hk]; auto. now apply K2.
      + exists false. split; [reflexivity|discriminate].
  Qed.
  Lemma equals_product (a b : E) fa fb : product a fa -> product b fb ->
    exists q, equals a b = Some q /\ (q = true -> incl fa fb).
  Proof.
    intros Ha. revert b fb. induction Ha as [a f Hf|a1 a2 f1 f2 H1 IH1 H2 IH2]; intros b fb Hb.
    - destruct Hb as [b g Hg|b1 b2 g1 g2 G1 G2].
      + destruct (equals_fac a b f g Hf Hg) as [K1 _]. eexists. split; [exact K1|].
        intros Hq k [<-|[]]. left. symmetry. now apply fac_eqb_eq.
      + exists false. split; [|discriminate]. facs Hf; reflexivity.
    - destruct Hb as [b g Hg|b1 b2 g1 g2 G1 G2].
      + exists false. split; [|discriminate]. facs Hg; reflexivity.
      + rewrite equals_bin. cbn [binop_eqb assoc].
        destruct (IH1 b1 g1 G1) as (q1 & -> & K1). destruct (IH2 b2 g2 G2) as (q2 & -> & K2).
        destruct (q1 && q2) eqn:Eq.
        * apply andb_prop in Eq. destruct Eq as [-> ->]. exists true. split; [reflexivity|]. intros _.
          intros k Hk. apply in_app_or in Hk. apply in_or_app.
          destruct Hk as [Hk|Hk]; [left; now apply K1|right; now apply K2].
        * apply all_found_fac; unfold flatten; apply Forall2_app; now apply product_flat.
  Qed.
  Lemma m_eq_disjoint (a b : E) fa fb : product a fa -> product b fb -> disjoint fa fb -> m_eq a b = ([], Ok false).
  Proof.
    intros Ha Hb Hd. apply meq_false. destruct (equals_product a b fa fb Ha Hb) as (q & Eq & K). destruct q; [|exact Eq].
    exfalso. pose proof (product_nonempty a fa Ha) as Hn. destruct fa as [|f fa]; [congruence|].
    apply (Hd (fst f)); [now left|]. apply in_map. apply K; [reflexivity|now left].
  Qed.
  Lemma m_eq_mul_r (a u v : E) f : fac a f -> m_eq a (EMul u v) = ([], Ok false).
  Proof. intros H. apply meq_false. facs H; reflexivity. Qed.
  Lemma m_eq_mul_l (a u v : E) f : fac a f -> m_eq (EMul u v) a = ([], Ok false).
  Proof. intros H. apply meq_false. facs H; reflexivity. Qed.

  (** ** Collecting the factors *)
  Inductive entry : E -> factor -> Prop :=
  | en_lit c z : lit c z -> entry (EReal c) (None, z)
  | en_pow x c k : lit c k -> entry (EExp (EVar x) (EReal c)) (Some x, k).

  Definition finds (f : E -> M (option E)) (t : factor) : Prop :=
    forall v u, entry v u -> (name_eqb (fst t) (fst u) = true -> ok (join (fst u) (snd u) (snd t))) ->
    exists o, f v = ([], Ok o) /\
      match o with
      | Some v' => name_eqb (fst t) (fst u) = true /\ entry v' (fst u, join (fst u) (snd u) (snd t))
      | None => name_eqb (fst t) (fst u) = false
      end.
  Definition room (t : factor) (st : list factor) : Prop :=
    Forall (fun u => name_eqb (fst t) (fst u) = true -> ok (join (fst u) (snd u) (snd t))) st.

  Lemma scan_entry f t vals st : finds f t -> Forall2 entry vals st -> room t st ->
    exists o, scan f vals = ([], Ok o) /\
      match o with
      | Some vals' => Forall2 entry vals' (put t st) /\ In (fst t) (names st)
      | None => put t st = st ++ [t]
      end.
  Proof.
    intros Hf H. induction H as [|v u vals st Hv H IH]; intros Hw.
    - exists None. now split.
    - inversion Hw as [|? ? W1 W2]; subst.
      destruct (Hf v u Hv W1) as (o & Eo & Ho). cbn [scan put names map].
      rewrite Eo. cbn [bind app fst snd]. destruct o as [v'|].
      + destruct Ho as [Hk Ho]. rewrite Hk. eexists. split; [reflexivity|]. split; [now constructor|].
        left. symmetry. now apply name_eqb_eq.
      + rewrite Ho. destruct (IH W2) as (o & -> & Hi). cbn [bind app fst snd ret].
        destruct o as [vals'|]; eexists; (split; [reflexivity|]); cbn [option_map].
        * destruct Hi as [Hi Hk]. split; [now constructor|now right].
        * now rewrite Hi.
  Qed.
  Lemma scan_push_entry f t vals st d : finds f t -> entry d t -> Forall2 entry vals st -> room t st ->
    exists vals', scan_or_push f vals (ret d) = ([], Ok vals') /\ Forall2 entry vals' (put t st) /\
      (~ In (fst t) (names st) -> vals' = vals ++ [d]).
  Proof.
    intros Hf Hd H Hw. unfold scan_or_push. destruct (scan_entry f t vals st Hf H Hw) as (o & -> & Ho).
    cbn [bind app fst snd]. destruct o as [vals'|].
    - destruct Ho as [Ho Hk]. exists vals'. split; [reflexivity|]. split; [exact Ho|]. intros Hn. contradiction.
    - rewrite Ho. exists (vals ++ [d]). split; [reflexivity|]. split; auto.
      apply Forall2_app; auto.
  Qed.

  Local Lemma simp_add_lit n c d : simp (S (S n)) prefer (EAdd (EReal c) (EReal d)) = ([], Ok (EReal (n_add c d))).
  Proof. reflexivity. Qed.
  Local Lemma m_eq_var x y : m_eq (EVar x : E) (EVar y) = ([], Ok (String.eqb x y)).
  Proof. rewrite (m_eq_fac _ _ _ _ (fac_var x) (fac_var y)). cbn -[String.eqb]. now rewrite andb_true_r. Qed.

  Lemma finds_lit c z : lit c z ->
    finds (fun v => match v with EReal y => ret (Some (EReal (n_mul y c))) | _ => ret None end) (None, z).
  Proof.
    intros Hc v u Hu Hb. destruct Hu as [d y Hd|x d k Hd]; (eexists; split; [reflexivity|]); cbn in *; auto.
    split; auto. constructor. apply (il_mul _ _ _ IL); auto.
  Qed.
  Lemma finds_var n x : finds (mul_collect_any (simp (S (S n)) prefer) (EVar x)) (Some x, 1).
  Proof.
    intros v u Hu Hb. destruct Hu as [d y Hd|y d k Hd].
    - eexists. split; reflexivity.
    - unfold mul_collect_any. cbn -[m_eq simp String.eqb Z.add]. unfold real. rewrite simp_add_lit, bindok, m_eq_var, bindok.
      cbn -[String.eqb Z.add] in Hb. rewrite (String.eqb_sym x y) in *.
      destruct (String.eqb y x); (eexists; split; [reflexivity|]); [|reflexivity].
      split; [reflexivity|]. constructor. apply (il_add _ _ _ IL); auto using lit1.
  Qed.
  Lemma finds_exp n x c k : lit c k -> finds (mul_collect_exp (simp (S (S n)) prefer) (EVar x) (EReal c)) (Some x, k).
  Proof.
    intros Hc v u Hu Hb. destruct Hu as [d y Hd|y d j Hd].
    - eexists. split; reflexivity.
    - unfold mul_collect_exp. cbn -[m_eq simp String.eqb Z.add]. rewrite m_eq_var, bindok.
      cbn -[String.eqb Z.add] in Hb. rewrite (String.eqb_sym x y) in *.
      destruct (String.eqb y x); [rewrite simp_add_lit, bindok|]; (eexists; split; [reflexivity|]); [|reflexivity].
      split; [reflexivity|]. constructor. apply (il_add _ _ _ IL); auto.
  Qed.

  (** What is pushed for a new factor. *)
  Definition entry_of (e : E) : E := match e with EVar x => EExp (EVar x) (real 1) | _ => e end.
  Lemma entry_of_fac e f : fac e f -> entry (entry_of e) f.
  Proof. intros H. facs H; constructor; auto. exact lit1. Qed.
  Lemma gather_one n e f vals st : fac e f -> Forall2 entry vals st -> room f st ->
    exists vals', mul_collect (simp (S (S n)) prefer) vals e = ([], Ok vals') /\
      Forall2 entry vals' (put f st) /\ (~ In (fst f) (names st) -> vals' = vals ++ [entry_of e]).
  Proof.
    intros Hf H Hw. pose proof (entry_of_fac e f Hf) as He. facs Hf.
    - apply scan_push_entry; auto. now apply finds_lit.
    - apply scan_push_entry; auto. apply finds_var.
    - apply scan_push_entry; auto. now apply finds_exp.
  Qed.

  Definition roomy (fs : list factor) : Prop := forall n, ok (amount n fs).
  Lemma roomy_le a b : roomy (a ++ b) -> Forall fine a -> Forall fine b -> roomy a.
  Proof. intros H Fa Fb n. eapply okle; [apply (H n)|]. now apply amount_le. Qed.
  Lemma roomy_settles a b : roomy b -> settles a b -> roomy a.
  Proof. intros H [K _] n. rewrite K. apply H. Qed.
  Lemma roomy_room f st : NoDup (names st) -> roomy (st ++ [f]) -> room f st.
  Proof.
    intros Hd H. apply Forall_forall. intros [n k] Hu He. cbn [fst snd] in *. apply name_eqb_eq in He. specialize (H n).
    rewrite amount_app, (amount_nodup n k st Hd Hu), amount_one, He, name_eqb_refl in H. exact H.
  Qed.

  Lemma gather_all n : forall l fs vals st, Forall2 fac l fs -> Forall2 entry vals st -> NoDup (names st) -> Forall fine st ->
    roomy (st ++ fs) ->
    exists vals', foldM (mul_collect (simp (S (S n)) prefer)) vals l = ([], Ok vals') /\
      Forall2 entry vals' (gather fs st) /\
      (NoDup (names (st ++ fs)) -> vals' = vals ++ map entry_of l).
  Proof.
    intros l fs vals st H. revert vals st. induction H as [|e f l fs Hf H IH]; intros vals st Hv Hd Hs Hw.
    - exists vals. split; [reflexivity|]. split; [exact Hv|]. intros _. simpl. now rewrite app_nil_r.
    - pose proof (facs_fine _ _ H) as Ff. pose proof (fac_fine _ _ Hf) as Fe.
      assert (Hw1 : roomy ((st ++ [f]) ++ fs)) by (rewrite <- app_assoc; exact Hw).
      destruct (gather_one n e f vals st Hf Hv) as (v1 & E1 & H1 & N1).
      { apply roomy_room; auto. apply (roomy_le _ fs Hw1); auto. apply Forall_app. auto. }
      destruct (IH v1 (put f st) H1 (nodup_put f st Hd) (fine_put f st Fe Hs)) as (v2 & E2 & H2 & N2).
      { intros m. rewrite amount_app, amount_put, <- amount_app. apply Hw1. }
      exists v2. cbn [foldM]. rewrite E1. cbn [bind]. rewrite E2. split; [reflexivity|]. split; [exact H2|].
      intros Hn. rewrite names_app in Hn. cbn [names map] in Hn. fold (names fs) in Hn. pose proof (NoDup_remove _ _ _ Hn) as [_ Hi].
      rewrite in_app_iff in Hi. rewrite N2, N1 by (try rewrite put_new; tauto || (rewrite <- ?app_assoc, ?names_app; cbn [names map app]; auto)).
      rewrite <- app_assoc. reflexivity.
  Qed.

  (** ** The final step of a product *)
  Definition settled (r : E) (tr : list factor) : Prop :=
    exists l, Forall2 fac l tr /\ NoDup (names tr) /\ (l = [r] \/ build OMul l = Some r).

  Lemma tree_product d l t tl : tree_over OMul d l t -> Forall2 fac l tl -> product t tl.
  Proof.
    intros H. revert tl. induction H as [d e|d l1 l2 a b H1 IH1 H2 IH2]; intros tl Hl.
    - inversion Hl as [|? u ? l' Hu Hn]; subst. inversion Hn; subst. now constructor.
    - apply Forall2_app_inv_l in Hl. destruct Hl as (t1 & t2 & F1 & F2 & ->). constructor; auto.
  Qed.
  Lemma build_tree (l : list E) t : build OMul l = Some t -> tree_over OMul (Nat.log2_up (length l)) l t.
  Proof. apply build_balanced. Qed.
  Lemma settled_product r tr : settled r tr -> product r tr.
  Proof.
    intros (l & F & _ & [->|B]).
    - inversion F as [|? f ? ? Hf Hn]; subst. inversion Hn; subst. now constructor.
    - eapply tree_product; [apply build_tree; exact B|exact F].
  Qed.
  Lemma settled_fac e f : fac e f -> settled e [f].
  Proof. intros H. exists [e]. repeat split; auto. cbn. repeat constructor. intros []. Qed.

  Lemma strip_entry v u : entry v u -> (fst u = None -> snd u <> 0 /\ snd u <> 1) -> fine u -> fac (strip_coef (strip_exp v)) u.
  Proof.
    intros H Hn Hf. destruct H as [c z Hc|x c k Hc]; cbn [fst snd] in *.
    - destruct (Hn eq_refl). now apply fac_lit.
    - unfold strip_exp. cbn -[strip_coef n1]. rewrite (eqb_lit _ _ _ _ Hc lit1). unfold fine in Hf. cbn [fst snd] in Hf.
      destruct (Z.eqb_spec k 1) as [->|K]; [apply fac_var|now apply fac_exp].
  Qed.
  Lemma strip_entry_of e f : fac e f -> strip_coef (strip_exp (entry_of e)) = e.
  Proof.
    intros H. facs H; unfold strip_exp; cbn -[n1 n_of_Z]; [reflexivity| |].
    - change (n_of_Z 1) with n1. now rewrite (eqb_lit _ _ _ _ lit1 lit1).
    - rewrite (eqb_lit _ _ _ _ Hc lit1). apply Z.eqb_neq in K1. now rewrite K1.
  Qed.

  Lemma mul_rest_ok n a b fa fb : product a fa -> product b fb -> roomy (fa ++ fb) ->
    (In None (names (fa ++ fb)) -> amount None (fa ++ fb) <> 1) ->
    (exists u v, u <> v /\ In u (names (fa ++ fb)) /\ In v (names (fa ++ fb))) ->
    exists l r tr, mul_rest (simp (S (S n)) prefer) a b = ([], Ok r) /\ build OMul l = Some r /\ Forall2 fac l tr /\
      NoDup (names tr) /\ settles tr (fa ++ fb) /\ (NoDup (names (fa ++ fb)) -> l = flat OMul a ++ flat OMul b).
  Proof.
    intros Ha Hb Hw H1 (u & v & Huv & Hu & Hv). unfold mul_rest, flatten.
    assert (F : Forall2 fac (flat OMul a ++ flat OMul b) (fa ++ fb)) by (apply Forall2_app; now apply product_flat).
    pose proof (facs_fine _ _ F) as Fine.
    destruct (gather_all n _ (fa ++ fb) [] [] F) as (vals & -> & Hvals & Hid); [constructor|constructor|constructor|exact Hw|].
    destruct (gather_spec (fa ++ fb) [] (NoDup_nil _) (Forall_nil _) Fine) as (D & Sg & Fg & Ng). cbn [app] in Sg, Ng, Hid.
    set (tr := gather (fa ++ fb) []) in *. set (l := map (fun v => strip_coef (strip_exp v)) vals).
    assert (Fl : Forall2 fac l tr).
    { assert (Hz : Forall (fun u => fst u = None -> snd u <> 0 /\ snd u <> 1) tr).
      { apply Forall_forall. intros [m z] Hi Hm. cbn in *. subst m. pose proof (amount_nodup None z tr D Hi) as K.
        rewrite (proj1 Sg) in K. rewrite <- K. split.
        - exact (amount_fine None _ Fine).
        - apply H1. apply (proj2 Sg). change (@None string) with (fst (@None string, z)). now apply in_map. }
      subst l. clear - IL Hvals Hz Fg. induction Hvals as [|x y vals tr He Hvals IH]; [constructor|].
      inversion Hz; subst. inversion Fg; subst. constructor; auto. apply strip_entry; auto. }
    assert (L : (2 <= length l)%nat).
    { apply Ng in Hu, Hv. rewrite (Forall2_length _ _ _ Fl). clear - Huv Hu Hv. clearbody tr.
      destruct tr as [|f [|g tr]]; cbn in *; try lia. destruct Hu as [<-|[]], Hv as [<-|[]]. congruence. }
    destruct (build_spec OMul l L) as (x & y & B & _). exists l, (EMul x y), tr.
    cbn [bind app fst snd]. fold l. rewrite B. repeat split; auto; try apply Sg.
    intros Hn. subst l. rewrite (Hid Hn). cbn [app]. rewrite map_map.
    clear - IL F. induction F as [|e f l fs Hf F IH]; [reflexivity|]. cbn [map]. rewrite IH. f_equal. eapply strip_entry_of; eauto.
  Qed.

  (** ** Casts of products *)
  (* [part fa e]: [e] is a product of factors whose names are among those of [fa] *)
  Definition part (fa : list factor) (e : E) : Prop := exists fe, product e fe /\ incl (names fe) (names fa).
  Definition expo (fa : list factor) (v : string) : Prop := In (Some v) (names fa).
  Lemma part_var fa v : expo fa v -> part fa (EVar v).
  Proof. intros H. exists [(Some v, 1)]. split; [constructor; apply fac_var|]. intros n [<-|[]]. exact H. Qed.
  Lemma part_self a fa : product a fa -> part fa a.
  Proof. intros H. exists fa. split; auto. apply incl_refl. Qed.
  Lemma m_eq_parts fa fb a b : disjoint fa fb -> part fa a -> part fb b -> m_eq a b = ([], Ok false).
  Proof. intros Hd (f & Pf & If) (g & Pg & Ig). eapply m_eq_disjoint; eauto. intros n Hf Hg. apply (Hd n); auto. Qed.

  Lemma cast_real a fa a' : product a fa -> rcast PReal a = Some a' ->
    exists c z, a = EReal c /\ a' = a /\ lit c z /\ z <> 0 /\ z <> 1 /\ In None (names fa).
  Proof.
    intros H K. destruct H as [e f Hf|]; [|discriminate]. facs Hf; try discriminate. cbn in K. injection K as <-.
    exists c, z. repeat split; auto. now left.
  Qed.
  Lemma cast_mul a fa a' : product a fa -> rcast pMul a = Some a' ->
    a' = a /\ exists c x, a = EMul c x /\ part fa c /\ part fa x.
  Proof.
    intros H K. destruct H as [e f Hf|c x fc fx Hc Hx]; [facs Hf; discriminate|]. cbn in K. injection K as <-. split; [reflexivity|].
    exists c, x. split; [reflexivity|]. split; [exists fc|exists fx]; (split; auto); intros n Hn; rewrite names_app, in_app_iff; auto.
  Qed.
  Lemma cast_exp a fa a' : product a fa -> rcast pExp a = Some a' ->
    a' = a /\ exists v n k, a = EExp (EVar v) (EReal n) /\ fa = [(Some v, k)] /\ lit n k.
  Proof.
    intros H K. destruct H as [e f Hf|]; [|discriminate]. facs Hf; try discriminate. cbn in K. injection K as <-.
    split; [reflexivity|]. eauto 8.
  Qed.
  Lemma cast_expo a fa a' : product a fa -> rcast pExp a = Some a' ->
    exists v n, a' = EExp (EVar v) (EReal n) /\ expo fa v.
  Proof.
    intros H K. destruct (cast_exp a fa a' H K) as (-> & v & n & k & -> & -> & _). exists v, n. split; [reflexivity|]. now left.
  Qed.
  Lemma cast_pair p q (a b r : E) : rcast (PBin OMul p q) (EMul a b) = Some r ->
    exists a' b', r = EMul a' b' /\ ((rcast p a = Some a' /\ rcast q b = Some b') \/ (rcast p b = Some a' /\ rcast q a = Some b')).
  Proof.
    cbn [rcast binop_eqb commut]. intros H.
    destruct (rcast p a) as [u|] eqn:E1; [destruct (rcast q b) as [v|] eqn:E2|]; [injection H as <-; eauto 6| |];
      (destruct (rcast p b) as [u'|] eqn:E3; [destruct (rcast q a) as [v'|] eqn:E4|]; try discriminate; injection H as <-; eauto 6).
  Qed.
  Lemma cast_mulexp a fa a' : product a fa -> rcast pMulExp a = Some a' ->
    exists d v n, a' = EMul d (EExp (EVar v) (EReal n)) /\ expo fa v /\ part fa d.
  Proof.
    intros H K. destruct H as [e f Hf|c x fc fx Hc Hx]; [facs Hf; discriminate|]. unfold pMulExp in K. apply cast_pair in K.
    destruct K as (u & w & -> & [[K1 K2]|[K1 K2]]); cbn in K1; injection K1 as <-.
    - destruct (cast_expo x fx w Hx K2) as (v & n & -> & Hv). exists c, v, n. split; [reflexivity|]. split.
      + unfold expo. rewrite names_app, in_app_iff. auto.
      + exists fc. split; auto. intros m Hm. rewrite names_app, in_app_iff. auto.
    - destruct (cast_expo c fc w Hc K2) as (v & n & -> & Hv). exists x, v, n. split; [reflexivity|]. split.
      + unfold expo. rewrite names_app, in_app_iff. auto.
      + exists fx. split; auto. intros m Hm. rewrite names_app, in_app_iff. auto.
  Qed.
  Lemma cast_expmul a fa a' : product a fa -> rcast (PBin OMul pExp PAny) a = Some a' ->
    exists d v n, a' = EMul (EExp (EVar v) (EReal n)) d /\ expo fa v.
  Proof.
    intros H K. destruct H as [e f Hf|c x fc fx Hc Hx]; [facs Hf; discriminate|]. apply cast_pair in K.
    destruct K as (u & w & -> & [[K1 K2]|[K1 K2]]); cbn in K2; injection K2 as <-.
    - destruct (cast_expo c fc u Hc K1) as (v & n & -> & Hv). exists x, v, n. split; [reflexivity|].
      unfold expo. rewrite names_app, in_app_iff. auto.
    - destruct (cast_expo x fx u Hx K1) as (v & n & -> & Hv). exists c, v, n. split; [reflexivity|].
      unfold expo. rewrite names_app, in_app_iff. auto.
  Qed.
  Lemma cast_none p (a : E) fa : p = PImag \/ p = PMat \/ p = pDiv \/ p = pAdd -> product a fa -> rcast p a = None.
  Proof. intros H Ha. destruct Ha as [e f Hf|]; [facs Hf|]; destruct H as [->|[->|[->| ->]]]; reflexivity. Qed.
  Lemma cast_none_l p q (a : E) fa (b : E) fb : p = PImag \/ p = PMat \/ p = pDiv \/ p = pAdd -> product a fa -> product b fb ->
    rcast (PBin OMul p q) (EMul a b) = None.
  Proof. intros H Ha Hb. cbn [rcast binop_eqb commut]. now rewrite (cast_none p a fa H Ha), (cast_none p b fb H Hb). Qed.
  Lemma cast_none_r p q (a : E) fa (b : E) fb : q = PImag \/ q = PMat \/ q = pDiv \/ q = pAdd -> product a fa -> product b fb ->
    rcast (PBin OMul p q) (EMul a b) = None.
  Proof.
    intros H Ha Hb. cbn [rcast binop_eqb commut]. rewrite (cast_none q a fa H Ha), (cast_none q b fb H Hb).
    now destruct (rcast p a), (rcast p b).
  Qed.

  (** ** Operands that share nothing *)
  Lemma disjoint_sym fa fb : disjoint fa fb -> disjoint fb fa.
  Proof. intros H n Hb Ha. exact (H n Ha Hb). Qed.

  Ltac pairs :=
    match goal with
    | |- context [rcast ?p (EMul ?a ?b)] =>
      let K := fresh "K" in let r := fresh "r" in
      destruct (rcast p (EMul a b)) as [r|] eqn:K; [|reflexivity];
      apply cast_pair in K; destruct K as (?u & ?w & -> & [[?K1 ?K2]|[?K1 ?K2]])
    end.
  Ltac any1 := repeat match goal with K : rcast PAny _ = Some _ |- _ => cbn in K; injection K as <- end.

  Lemma disjoint_silent S a b fa fb : product a fa -> product b fb -> disjoint fa fb ->
    Forall (fun r => r a b = ([], Ok None)) (mul_rules S prefer).
  Proof.
    intros Ha Hb Hd. pose proof (disjoint_sym _ _ Hd) as Hd'.
    assert (R478 : mul_478 S a b = ([], Ok None)).
    { unfold mul_478. pairs; any1.
      - destruct (cast_real a fa u Ha K1) as (c & z & -> & -> & Hc & Z0 & Z1 & _).
        rewrite (tiny_lit _ _ Hc), (eqb_lit _ _ _ _ Hc lit1). apply Z.eqb_neq in Z0, Z1. now rewrite Z0, Z1.
      - destruct (cast_real b fb u Hb K1) as (c & z & -> & -> & Hc & Z0 & Z1 & _).
        rewrite (tiny_lit _ _ Hc), (eqb_lit _ _ _ _ Hc lit1). apply Z.eqb_neq in Z0, Z1. now rewrite Z0, Z1. }
    assert (R488 : mul_488 a b = ([], Ok None)).
    { unfold mul_488. pairs; exfalso.
      - destruct (cast_real a fa u Ha K1) as (c & z & _ & _ & _ & _ & _ & I1).
        destruct (cast_real b fb w Hb K2) as (c' & z' & _ & _ & _ & _ & _ & I2). exact (Hd None I1 I2).
      - destruct (cast_real b fb u Hb K1) as (c & z & _ & _ & _ & _ & _ & I1).
        destruct (cast_real a fa w Ha K2) as (c' & z' & _ & _ & _ & _ & _ & I2). exact (Hd None I2 I1). }
    assert (R548 : mul_548 S a b = ([], Ok None)).
    { unfold mul_548. pairs; any1.
      - destruct (cast_expo b fb w Hb K2) as (v & n & -> & Hv).
        now rewrite (m_eq_parts fa fb _ _ Hd (part_self a fa Ha) (part_var fb v Hv)).
      - destruct (cast_expo a fa w Ha K2) as (v & n & -> & Hv).
        now rewrite (m_eq_parts fb fa _ _ Hd' (part_self b fb Hb) (part_var fa v Hv)). }
    assert (R569 : mul_569 S a b = ([], Ok None)).
    { unfold mul_569. pairs; any1.
      - destruct (cast_expo a fa u Ha K1) as (v & n & -> & Hv).
        now rewrite (m_eq_parts fb fa _ _ Hd' (part_self b fb Hb) (part_var fa v Hv)).
      - destruct (cast_expo b fb u Hb K1) as (v & n & -> & Hv).
        now rewrite (m_eq_parts fa fb _ _ Hd (part_self a fa Ha) (part_var fb v Hv)). }
    assert (R580 : mul_580 S a b = ([], Ok None)).
    { unfold mul_580. pairs.
      - destruct (cast_expo a fa u Ha K1) as (v & n & -> & Hv). destruct (cast_expo b fb w Hb K2) as (v' & n' & -> & Hv').
        now rewrite (m_eq_parts fa fb _ _ Hd (part_var fa v Hv) (part_var fb v' Hv')).
      - destruct (cast_expo b fb u Hb K1) as (v & n & -> & Hv). destruct (cast_expo a fa w Ha K2) as (v' & n' & -> & Hv').
        now rewrite (m_eq_parts fb fa _ _ Hd' (part_var fb v Hv) (part_var fa v' Hv')). }
    assert (R591 : mul_591 a b = ([], Ok None)).
    { unfold mul_591. pairs; any1.
      - destruct (cast_mul a fa u Ha K1) as (-> & c & x & -> & Pc & Px).
        now rewrite (m_eq_parts fa fb _ _ Hd Px (part_self b fb Hb)).
      - destruct (cast_mul b fb u Hb K1) as (-> & c & x & -> & Pc & Px).
        now rewrite (m_eq_parts fb fa _ _ Hd' Px (part_self a fa Ha)). }
    assert (R599 : mul_599 S a b = ([], Ok None)).
    { unfold mul_599. pairs.
      - destruct (cast_mul a fa u Ha K1) as (-> & c & x & -> & Pc & Px). destruct (cast_mul b fb w Hb K2) as (-> & d & y & -> & Pd & Py).
        now rewrite (m_eq_parts fa fb _ _ Hd Px Py).
      - destruct (cast_mul b fb u Hb K1) as (-> & c & x & -> & Pc & Px). destruct (cast_mul a fa w Ha K2) as (-> & d & y & -> & Pd & Py).
        now rewrite (m_eq_parts fb fa _ _ Hd' Px Py). }
    assert (R614 : mul_614 S a b = ([], Ok None)).
    { unfold mul_614. pairs; any1.
      - destruct (cast_mulexp a fa u Ha K1) as (d & v & n & -> & Hv & _).
        now rewrite (m_eq_parts fa fb _ _ Hd (part_var fa v Hv) (part_self b fb Hb)).
      - destruct (cast_mulexp b fb u Hb K1) as (d & v & n & -> & Hv & _).
        now rewrite (m_eq_parts fb fa _ _ Hd' (part_var fb v Hv) (part_self a fa Ha)). }
    assert (R626 : mul_626 S a b = ([], Ok None)).
    { unfold mul_626. pairs.
      - destruct (cast_mul a fa u Ha K1) as (-> & c & x & -> & Pc & Px). destruct (cast_expo b fb w Hb K2) as (v & n & -> & Hv).
        rewrite (m_eq_parts fa fb _ _ Hd Px (part_var fb v Hv)), bindok.
        now rewrite (m_eq_parts fa fb _ _ Hd Pc (part_var fb v Hv)).
      - destruct (cast_mul b fb u Hb K1) as (-> & c & x & -> & Pc & Px). destruct (cast_expo a fa w Ha K2) as (v & n & -> & Hv).
        rewrite (m_eq_parts fb fa _ _ Hd' Px (part_var fa v Hv)), bindok.
        now rewrite (m_eq_parts fb fa _ _ Hd' Pc (part_var fa v Hv)). }
    assert (R646 : mul_646 S a b = ([], Ok None)).
    { unfold mul_646. pairs.
      - destruct (cast_mul a fa u Ha K1) as (-> & c & x & -> & Pc & Px). destruct (cast_mulexp b fb w Hb K2) as (d & v & n & -> & Hv & _).
        now rewrite (m_eq_parts fa fb _ _ Hd Px (part_var fb v Hv)).
      - destruct (cast_mul b fb u Hb K1) as (-> & c & x & -> & Pc & Px). destruct (cast_mulexp a fa w Ha K2) as (d & v & n & -> & Hv & _).
        now rewrite (m_eq_parts fb fa _ _ Hd' Px (part_var fa v Hv)). }
    assert (R661 : mul_661 S a b = ([], Ok None)).
    { unfold mul_661. pairs.
      - destruct (cast_mul a fa u Ha K1) as (-> & c & x & -> & Pc & Px). destruct (cast_expmul b fb w Hb K2) as (d & v & n & -> & Hv).
        now rewrite (m_eq_parts fa fb _ _ Hd Px (part_var fb v Hv)).
      - destruct (cast_mul b fb u Hb K1) as (-> & c & x & -> & Pc & Px). destruct (cast_expmul a fa w Ha K2) as (d & v & n & -> & Hv).
        now rewrite (m_eq_parts fb fa _ _ Hd' Px (part_var fa v Hv)). }
    assert (R676 : mul_676 S a b = ([], Ok None)).
    { unfold mul_676. pairs.
      - destruct (cast_mulexp a fa u Ha K1) as (d & v & n & -> & Hv & _). destruct (cast_mul b fb w Hb K2) as (-> & c & x & -> & Pc & Px).
        now rewrite (m_eq_parts fa fb _ _ Hd (part_var fa v Hv) Px).
      - destruct (cast_mulexp b fb u Hb K1) as (d & v & n & -> & Hv & _). destruct (cast_mul a fa w Ha K2) as (-> & c & x & -> & Pc & Px).
        now rewrite (m_eq_parts fb fa _ _ Hd' (part_var fb v Hv) Px). }
    assert (Vm : forall v (n : num), m_eq (EVar v) (EReal n) = ([], Ok false)) by reflexivity.
    assert (R692 : mul_692 S a b = ([], Ok None)).
    { unfold mul_692. pairs.
      - destruct (cast_mulexp a fa u Ha K1) as (d & v & n & -> & Hv & _). destruct (cast_expo b fb w Hb K2) as (v' & n' & -> & _). now rewrite Vm.
      - destruct (cast_mulexp b fb u Hb K1) as (d & v & n & -> & Hv & _). destruct (cast_expo a fa w Ha K2) as (v' & n' & -> & _). now rewrite Vm. }
    assert (R706 : mul_706 S a b = ([], Ok None)).
    { unfold mul_706. pairs.
      - destruct (cast_mulexp a fa u Ha K1) as (d & v & n & -> & Hv & _). destruct (cast_mulexp b fb w Hb K2) as (d' & v' & n' & -> & Hv' & _).
        now rewrite (m_eq_parts fa fb _ _ Hd (part_var fa v Hv) (part_var fb v' Hv')).
      - destruct (cast_mulexp b fb u Hb K1) as (d & v & n & -> & Hv & _). destruct (cast_mulexp a fa w Ha K2) as (d' & v' & n' & -> & Hv' & _).
        now rewrite (m_eq_parts fb fa _ _ Hd' (part_var fb v Hv) (part_var fa v' Hv')). }
    repeat constructor; auto.
    - unfold mul_494. now rewrite (cast_none_l _ _ a fa b fb) by auto.
    - unfold mul_498. now rewrite (cast_none_r _ _ a fa b fb) by auto.
    - unfold mul_506. now rewrite (m_eq_disjoint a b fa fb Ha Hb Hd).
    - unfold mul_512. now rewrite (cast_none_r _ _ a fa b fb) by auto.
    - unfold mul_516. now rewrite (cast_none_r _ _ a fa b fb) by auto.
    - unfold mul_528. now rewrite (cast_none_r _ _ a fa b fb) by auto.
    - unfold mul_536. now rewrite (cast_none_r _ _ a fa b fb) by auto.
    - unfold mul_723. now rewrite (cast_none_r _ _ a fa b fb) by auto.
  Qed.
  Lemma silent_rest (rs : list (E -> E -> rule)) d a b : Forall (fun r => r a b = ([], Ok None)) rs -> first_rule rs d a b = d a b.
  Proof. intros H. induction H as [|r rs Hr H IH]; [reflexivity|]. cbn [first_rule]. now rewrite Hr, bindok. Qed.

  (** ** Operands of which one is a single factor *)
  Definition res (r : E) (fs : list factor) : Prop := exists tr, settled r tr /\ settles tr fs.
  Lemma res_fac r f fs : fac r f -> settles [f] fs -> res r fs.
  Proof. intros H K. exists [f]. split; [now apply settled_fac|exact K]. Qed.
  Lemma res_settles r a b : res r a -> settles a b -> res r b.
  Proof. intros (tr & H & K) L. exists tr. split; auto. eapply settles_trans; eauto. Qed.
  Lemma settles_merge m j k : settles [(m, join m j k)] ([(m, j)] ++ [(m, k)]).
  Proof.
    split.
    - intros n. cbn [app]. rewrite !amount_cons, amount_nil. cbn [fst snd]. destruct (name_eqb n m) eqn:E; [|reflexivity].
      apply name_eqb_eq in E. subst n. now rewrite !join_unit_r.
    - intros n [<-|[]]. now left.
  Qed.
  Lemma settles_replace t0 m j k : settles (t0 ++ [(m, join m j k)]) ((t0 ++ [(m, j)]) ++ [(m, k)]).
  Proof. rewrite <- app_assoc. apply settles_app; [apply settles_refl|apply settles_merge]. Qed.

  Notation simpS n := (simp (S (S n)) prefer).
  Notation mul_run n a b := (first_rule (mul_rules (simpS n) prefer) (mul_rest (simpS n)) a b).

  Lemma fac_lit_prod c d y z : lit c y -> lit d z -> y <> 0 -> z <> 0 -> y <> z -> ok (y * z) -> fac (EReal (n_mul c d)) (None, y * z).
  Proof.
    intros Hc Hd Y0 Z0 K Ho. apply fac_lit; [apply (il_mul _ _ _ IL); auto| |]; [intros H; apply Z.mul_eq_0 in H; tauto|].
    intros H. apply K. apply Z.eq_mul_1 in H as H1. destruct H1 as [->| ->]; lia.
  Qed.

  Ltac skip := rewrite first_no; [|reflexivity].
  Lemma factors_ok n a b m j k : fac a (m, j) -> fac b (m, k) -> j <> k \/ (j = 1 /\ k = 1) -> ok (join m j k) ->
    exists r, mul_run n a b = ([], Ok r) /\ res r ([(m, j)] ++ [(m, k)]).
  Proof.
    intros Ha Hb Hjk Hw. pose proof (m_eq_fac a b _ _ Ha Hb) as M. cbn [fst snd] in M. rewrite name_eqb_refl in M. cbn [andb] in M.
    assert (Fin : forall r, fac r (m, join m j k) -> res r ([(m, j)] ++ [(m, k)])) by (intros r Hr; eapply res_fac; [exact Hr|apply settles_merge]).
    apply fac_cases in Ha, Hb. unfold mul_rules.
    destruct Ha as [(c & z & -> & Hf & Hc & Z0 & Z1)|[(x & -> & Hf)|(x & c & z & -> & Hf & Hc & Z1 & Z0)]]; injection Hf as -> ->;
      (destruct Hb as [(d & y & -> & Hf & Hd & Y0 & Y1)|[(x' & -> & Hf)|(x' & d & y & -> & Hf & Hd & Y1 & Y0)]]; try discriminate; injection Hf as ?; subst).
    - assert (Hne : z <> y) by tauto. eexists. split; [|apply Fin; apply fac_lit_prod; eauto].
      rewrite first_no; [apply first_yes; reflexivity|]. unfold mul_478. cbn -[n1 tiny].
      rewrite (tiny_lit _ _ Hc), (eqb_lit _ _ _ _ Hc lit1). apply Z.eqb_neq in Z0, Z1. now rewrite Z0, Z1.
    - eexists. split; [|apply Fin; apply fac_exp; [exact lit2|cbn; lia|cbn; lia]].
      do 4 skip. apply first_yes. unfold mul_506. rewrite M, bindok. reflexivity.
    - eexists. split; [|apply Fin; apply fac_exp with (c := n_add d n1); [|cbn -[Z.add]; lia|cbn -[Z.add]; lia]].
      + do 4 skip. rewrite first_no; [|unfold mul_506; rewrite M, bindok; replace (1 =? y) with false; [reflexivity|symmetry; apply Z.eqb_neq; congruence]].
        do 4 skip. apply first_yes. unfold mul_548. cbn -[m_eq simp]. rewrite m_eq_var, String.eqb_refl, bindok. unfold real. rewrite simp_add_lit, bindok. reflexivity.
      + cbn -[Z.add]. rewrite Z.add_comm. apply (il_add _ _ _ IL); auto using lit1. rewrite Z.add_comm. exact Hw.
    - eexists. split; [|apply Fin; apply fac_exp with (c := n_add c n1); [|cbn -[Z.add]; lia|cbn -[Z.add]; lia]].
      + do 4 skip. rewrite first_no; [|unfold mul_506; rewrite M, bindok; apply Z.eqb_neq in Z1; rewrite Z1; reflexivity].
        do 4 skip. apply first_yes. unfold mul_548. cbn -[m_eq simp]. rewrite m_eq_var, String.eqb_refl, bindok. unfold real. rewrite simp_add_lit, bindok. reflexivity.
      + apply (il_add _ _ _ IL); auto using lit1.
    - assert (Hne : (z =? y) = false) by (apply Z.eqb_neq; lia). rewrite Hne in M.
      eexists. split; [|apply Fin; apply fac_exp with (c := n_add c d); [|cbn -[Z.add]; lia|cbn -[Z.add]; lia]].
      + do 4 skip. rewrite first_no; [|unfold mul_506; rewrite M, bindok; reflexivity]. do 7 skip.
        apply first_yes. unfold mul_580. cbn -[m_eq simp]. rewrite m_eq_var, String.eqb_refl, bindok. rewrite simp_add_lit, bindok. reflexivity.
      + apply (il_add _ _ _ IL); auto.
  Qed.

  (* the rules that can apply to a product and a single factor *)
  Definition three (S : E -> M E) : list (E -> E -> rule) := [mul_591; mul_614 S; mul_626 S].
  Lemma first_cong (r r' : E -> E -> rule) rs rs' d d' a b a' b' : r a b = r' a' b' ->
    first_rule rs d a b = first_rule rs' d' a' b' -> first_rule (r :: rs) d a b = first_rule (r' :: rs') d' a' b'.
  Proof. intros H K. cbn [first_rule]. now rewrite H, K. Qed.
  Lemma cast_swap p q (a b : E) : rcast p b = None \/ rcast q a = None ->
    rcast (PBin OMul p q) (EMul b a) = rcast (PBin OMul p q) (EMul a b).
  Proof.
    cbn [rcast binop_eqb commut]. intros [H|H]; rewrite H.
    - destruct (rcast p a), (rcast q b); reflexivity.
    - destruct (rcast p b), (rcast p a), (rcast q b); reflexivity.
  Qed.
  Lemma fac_pmul b f : fac b f -> rcast pMul b = None /\ rcast pMulExp b = None /\ rcast (PBin OMul pExp PAny) b = None.
  Proof. intros H. facs H; repeat split; reflexivity. Qed.
  Lemma cast_no_l p q (a b : E) : rcast p a = None -> rcast p b = None -> rcast (PBin OMul p q) (EMul a b) = None.
  Proof. intros H K. cbn [rcast binop_eqb commut]. now rewrite H, K. Qed.
  Lemma cast_no_r p q (a b : E) : rcast q a = None -> rcast q b = None -> rcast (PBin OMul p q) (EMul a b) = None.
  Proof. intros H K. cbn [rcast binop_eqb commut]. rewrite H, K. now destruct (rcast p a), (rcast p b). Qed.
  (* one operand fits neither part *)
  Lemma cast_no_1 p q (a b : E) : rcast p b = None -> rcast q b = None -> rcast (PBin OMul p q) (EMul a b) = None.
  Proof. intros H K. cbn [rcast binop_eqb commut]. rewrite H, K. now destruct (rcast p a). Qed.
  Lemma cast_no_2 p q (a b : E) : rcast p a = None -> rcast q a = None -> rcast (PBin OMul p q) (EMul a b) = None.
  Proof. intros H K. cbn [rcast binop_eqb commut]. rewrite H, K. now destruct (rcast p b). Qed.

  Lemma comp_first S c x fa b f d : product (EMul c x) fa -> fac b f ->
    first_rule (mul_rules S prefer) d (EMul c x) b = first_rule (three S) d (EMul c x) b /\
    first_rule (mul_rules S prefer) d b (EMul c x) = first_rule (three S) (fun u v => d v u) (EMul c x) b.
  Proof.
    intros Ha Hb. set (a := EMul c x) in *. pose proof (fac_pmul b f Hb) as (B1 & B2 & B3).
    assert (Pb : product b [f]) by now constructor.
    assert (A0 : rcast PReal a = None) by reflexivity. assert (A1 : rcast pExp a = None) by reflexivity.
    assert (M1 : m_eq a b = ([], Ok false)) by (eapply m_eq_mul_l; eauto).
    assert (M2 : m_eq b a = ([], Ok false)) by (eapply m_eq_mul_r; eauto).
    assert (Vm : forall v, m_eq a (EVar v) = ([], Ok false)) by (intros v; eapply m_eq_mul_l; apply fac_var).
    assert (Vn : forall v (n : num), m_eq (EVar v) (EReal n) = ([], Ok false)) by reflexivity.
    (* silent rules, in both orders *)
    assert (R478 : mul_478 S a b = ([], Ok None)).
    { unfold mul_478. pairs; any1; [discriminate|].
      destruct (cast_real b _ u Pb K1) as (e & z & -> & -> & Hc & Z0 & Z1 & _).
      rewrite (tiny_lit _ _ Hc), (eqb_lit _ _ _ _ Hc lit1). apply Z.eqb_neq in Z0, Z1. now rewrite Z0, Z1. }
    assert (R548 : mul_548 S a b = ([], Ok None)).
    { unfold mul_548. pairs; any1; [|discriminate].
      destruct (cast_expo b _ w Pb K2) as (v & n & -> & Hv). now rewrite Vm. }
    assert (R569 : mul_569 S a b = ([], Ok None)).
    { unfold mul_569. pairs; any1; [discriminate|].
      destruct (cast_expo b _ u Pb K1) as (v & n & -> & Hv). now rewrite Vm. }
    assert (R692 : mul_692 S a b = ([], Ok None)).
    { unfold mul_692. pairs.
      - destruct (cast_mulexp a fa u Ha K1) as (e & v & n & -> & Hv & _). destruct (cast_expo b _ w Pb K2) as (v' & n' & -> & _). now rewrite Vn.
      - congruence. }
    assert (Silent : forall r, In r [mul_478 S; mul_488; mul_494; mul_498 S; mul_506; mul_512; mul_516; mul_528 S; mul_536 S;
              mul_548 S; mul_569 S; mul_580 S; mul_599 S; mul_646 S; mul_661 S; mul_676 S; mul_692 S; mul_706 S; mul_723 S prefer] ->
              r a b = ([], Ok None) /\ r b a = ([], Ok None)).
    { intros r Hr. cbn [In] in Hr.
      repeat (destruct Hr as [Hr|Hr]; [subst r|]); [..|contradiction]; (split; [try assumption|]).
      - unfold mul_478 in *. now rewrite (cast_swap PReal PAny b a) in R478 by auto.
      - unfold mul_488. now rewrite cast_no_2 by reflexivity.
      - unfold mul_488. now rewrite cast_no_1 by reflexivity.
      - unfold mul_494. now rewrite cast_no_2 by reflexivity.
      - unfold mul_494. now rewrite cast_no_1 by reflexivity.
      - unfold mul_498. now rewrite cast_no_2 by reflexivity.
      - unfold mul_498. now rewrite cast_no_1 by reflexivity.
      - unfold mul_506. now rewrite M1.
      - unfold mul_506. now rewrite M2.
      - unfold mul_512. now rewrite cast_no_2 by reflexivity.
      - unfold mul_512. now rewrite cast_no_1 by reflexivity.
      - unfold mul_516. now rewrite cast_no_2 by reflexivity.
      - unfold mul_516. now rewrite cast_no_1 by reflexivity.
      - unfold mul_528. now rewrite (cast_none_r _ _ a fa b [f]) by auto.
      - unfold mul_528. now rewrite (cast_none_r _ _ b [f] a fa) by auto.
      - unfold mul_536. now rewrite (cast_none_r _ _ a fa b [f]) by auto.
      - unfold mul_536. now rewrite (cast_none_r _ _ b [f] a fa) by auto.
      - unfold mul_548 in *. now rewrite (cast_swap PAny pExp a b) by auto.
      - unfold mul_569 in *. now rewrite (cast_swap pExp PAny b a) in R569 by auto.
      - unfold mul_580. now rewrite cast_no_2 by reflexivity.
      - unfold mul_580. now rewrite cast_no_1 by reflexivity.
      - unfold mul_599. now rewrite cast_no_1 by auto.
      - unfold mul_599. now rewrite cast_no_2 by auto.
      - unfold mul_646. now rewrite cast_no_1 by auto.
      - unfold mul_646. now rewrite cast_no_2 by auto.
      - unfold mul_661. now rewrite cast_no_1 by auto.
      - unfold mul_661. now rewrite cast_no_2 by auto.
      - unfold mul_676. now rewrite cast_no_1 by auto.
      - unfold mul_676. now rewrite cast_no_2 by auto.
      - unfold mul_692 in *. now rewrite (cast_swap pMulExp pExp a b) by auto.
      - unfold mul_706. now rewrite cast_no_1 by auto.
      - unfold mul_706. now rewrite cast_no_2 by auto.
      - unfold mul_723. now rewrite (cast_none_r _ _ a fa b [f]) by auto.
      - unfold mul_723. now rewrite (cast_none_r _ _ b [f] a fa) by auto. }
    unfold mul_rules, three. split.
    - repeat (rewrite first_no; [|solve [apply Silent; cbn [In]; tauto]]). apply first_cong; [reflexivity|].
      repeat (rewrite first_no; [|solve [apply Silent; cbn [In]; tauto]]). apply first_cong; [reflexivity|]. apply first_cong; [reflexivity|].
      repeat (rewrite first_no; [|solve [apply Silent; cbn [In]; tauto]]). reflexivity.
    - repeat (rewrite first_no; [|solve [apply Silent; cbn [In]; tauto]]). apply first_cong; [unfold mul_591; now rewrite (cast_swap pMul PAny a b) by auto|].
      repeat (rewrite first_no; [|solve [apply Silent; cbn [In]; tauto]]). apply first_cong; [unfold mul_614; now rewrite (cast_swap pMulExp PAny a b) by auto|].
      apply first_cong; [unfold mul_626; now rewrite (cast_swap pMul pExp a b) by auto|].
      repeat (rewrite first_no; [|solve [apply Silent; cbn [In]; tauto]]). reflexivity.
  Qed.

  Lemma res_last l0 x c t0 m j k y : Forall2 fac (l0 ++ [x]) (t0 ++ [(m, j)]) -> NoDup (names (t0 ++ [(m, j)])) ->
    build OMul (l0 ++ [y]) = Some (EMul c y) -> fac y (m, join m j k) -> res (EMul c y) ((t0 ++ [(m, j)]) ++ [(m, k)]).
  Proof.
    intros F D B Hy. exists (t0 ++ [(m, join m j k)]). split; [|apply settles_replace].
    exists (l0 ++ [y]). split; [|split; [|now right]].
    - apply Forall2_app_inv_l in F. destruct F as (t1 & t2 & F1 & F2 & Ht).
      inversion F2 as [|? g ? t3 _ F3]; subst. inversion F3; subst. apply app_inj_tail in Ht. destruct Ht as [-> _].
      apply Forall2_app; auto.
    - rewrite names_app in *. exact D.
  Qed.
  Lemma res_first c x m j k g y : fac c (m, j) -> fac x g -> NoDup (names [(m, j); g]) -> fac y (m, join m j k) ->
    res (EMul x y) ([(m, j); g] ++ [(m, k)]).
  Proof.
    intros Hc Hx D Hy. apply res_settles with (a := ([g] ++ [(m, j)]) ++ [(m, k)]).
    - apply res_last with (l0 := [x]) (x := c); [repeat constructor; auto| |reflexivity|exact Hy].
      cbn in *. inversion D as [|? ? Hn Hd]; subst. constructor; [|repeat constructor; intros []].
      cbn. intros [H|[]]. apply Hn. now left.
    - change [(m, j); g] with ([(m, j)] ++ [g]). apply settles_app; [apply settles_swap|apply settles_refl].
  Qed.

  (* how a product that Simplify made splits at its last or first factor *)
  Lemma settled_mul c x ta : settled (EMul c x) ta ->
    NoDup (names ta) /\
    (forall f, fac x f -> exists l0 t0, ta = t0 ++ [f] /\ Forall2 fac (l0 ++ [x]) ta /\ forall y, build OMul (l0 ++ [y]) = Some (EMul c y)) /\
    (forall f, fac c f -> exists g, ta = [f; g] /\ fac x g).
  Proof.
    intros (l & F & D & B). assert (Hb : build OMul l = Some (EMul c x)).
    { destruct B as [->|B]; [|exact B]. exfalso. inversion F as [|? f ? ? Hf _]; subst. exact (fac_not_mul _ _ Hf c x eq_refl). }
    assert (Uniq : forall e f g, fac e f -> fac e g -> f = g).
    { intros e f g Hf Hg. pose proof (m_eq_fac e e f g Hf Hg) as M1. pose proof (m_eq_fac e e f f Hf Hf) as M2.
      rewrite M2 in M1. injection M1 as M1. rewrite (proj2 (fac_eqb_eq f f) eq_refl) in M1. apply fac_eqb_eq. congruence. }
    split; [exact D|]. split.
    - intros f Hf. destruct (build_last OMul l c x Hb (fac_not_mul x f Hf)) as (l0 & -> & K).
      pose proof F as F'. apply Forall2_app_inv_l in F'. destruct F' as (t0 & t1 & F1 & F2 & ->).
      inversion F2 as [|? g ? t3 Hg F3]; subst. inversion F3; subst. rewrite (Uniq x f g Hf Hg). exists l0, t0. auto.
    - intros f Hf. pose proof (build_first OMul l c x Hb (fac_not_mul c f Hf)) as ->.
      inversion F as [|? f' ? t1 Hf' F1]; subst. inversion F1 as [|? g ? t2 Hg F2]; subst. inversion F2; subst.
      rewrite (Uniq c f f' Hf Hf'). eauto.
  Qed.

  Lemma product_shape e fs : product e fs -> (exists f, fac e f /\ fs = [f]) \/ exists u v, e = EMul u v.
  Proof. intros H. destruct H; [left|right]; eauto. Qed.

  Lemma three_ok n c x ta b m k : settled (EMul c x) ta -> fac b (m, k) -> (k = 1 \/ amount m ta <> k) -> roomy (ta ++ [(m, k)]) ->
    (exists r, (forall d, first_rule (three (simpS n)) d (EMul c x) b = ([], Ok r)) /\ res r (ta ++ [(m, k)])) \/
    (forall d, first_rule (three (simpS n)) d (EMul c x) b = d (EMul c x) b).
  Proof.
    intros Ha Hb Hk Hw. pose proof (settled_product _ _ Ha) as Pa. destruct (settled_mul c x ta Ha) as (D & Last & First).
    assert (Sub : exists fc fx, product c fc /\ product x fx /\ ta = fc ++ fx).
    { inversion Pa as [e f Hf|? ? fc fx Hc Hx]; subst; [destruct (fac_not_mul _ _ Hf c x eq_refl)|eauto]. }
    destruct Sub as (fc & fx & Pc & Px & Et).
    (* 591 *)
    assert (R591 : forall f, fac x f -> f <> (m, k) -> mul_591 (EMul c x) b = ([], Ok None)).
    { intros f Hf Hne. unfold mul_591. cbn -[m_eq]. rewrite (m_eq_fac x b f (m, k) Hf Hb), bindok.
      destruct (name_eqb _ _ && _) eqn:K; [apply fac_eqb_eq in K; contradiction|reflexivity]. }
    assert (R591' : forall u v, x = EMul u v -> mul_591 (EMul c x) b = ([], Ok None)).
    { intros u v ->. unfold mul_591. cbn -[m_eq]. now rewrite (m_eq_mul_l b u v _ Hb). }
    assert (Here : forall f, fac x f -> fst f = m -> amount m ta = snd f).
    { intros f Hf <-. destruct (Last f Hf) as (l0 & t0 & -> & _). apply amount_nodup; auto. apply in_or_app. right. destruct f. now left. }
    assert (R591no : k <> 1 -> mul_591 (EMul c x) b = ([], Ok None)).
    { intros K. destruct (product_shape x fx Px) as [(f & Hf & _)|(u & v & Hu)]; [|eauto].
      apply (R591 f Hf). intros ->. destruct Hk as [Hk|Hk]; [congruence|]. apply Hk. apply (Here _ Hf). reflexivity. }
    pose proof (fac_pmul b _ Hb) as (B1 & B2 & B3). pose proof Hb as Hb'.
    apply fac_cases in Hb'. destruct Hb' as [(d & z & -> & Hf & Hd & Z0 & Z1)|[(v & -> & Hf)|(v & d & z & -> & Hf & Hd & Z1 & Z0)]]; injection Hf as -> ->.
    - (* a number *)
      right. intros dd. apply silent_rest. apply Forall_cons; [auto|]. apply Forall_cons; [|apply Forall_cons; [|constructor]].
      + unfold mul_614. pairs; any1; [|discriminate].
        destruct (cast_mulexp _ _ _ Pa K1) as (e & v & q & -> & _). reflexivity.
      + unfold mul_626. now rewrite cast_no_r by reflexivity.
    - (* a variable *)
      assert (R626 : mul_626 (simpS n) (EMul c x) (EVar v) = ([], Ok None)) by (unfold mul_626; now rewrite cast_no_r by reflexivity).
      assert (R614 : forall e w q, rcast pMulExp (EMul c x) = Some (EMul e (EExp (EVar w) (EReal q))) ->
        mul_614 (simpS n) (EMul c x) (EVar v) = if String.eqb w v then ([], Ok (Some (EMul e (EExp (EVar v) (EReal (n_add q n1)))))) else ([], Ok None)).
      { intros e w q K. unfold mul_614. change (rcast (PBin OMul pMulExp PAny) (EMul (EMul c x) (EVar v))) with
          (match rcast pMulExp (EMul c x) with Some a' => Some (EMul a' (EVar v)) | None => None end).
        rewrite K. cbn -[m_eq simp String.eqb]. rewrite m_eq_var, bindok.
        destruct (String.eqb w v) eqn:Ew; [|reflexivity]. apply String.eqb_eq in Ew. subst w. unfold real. now rewrite simp_add_lit. }
      assert (Inc : forall q j, lit q j -> 0 < j -> In (Some v, j) ta -> fac (EExp (EVar v) (EReal (n_add q n1))) (Some v, join (Some v) j 1)).
      { intros q j Hq Hj Hi. apply fac_exp; [|cbn -[Z.add]; lia|cbn -[Z.add]; lia]. apply (il_add _ _ _ IL); auto using lit1.
        specialize (Hw (Some v)). rewrite amount_app, (amount_nodup _ _ _ D Hi), amount_one, name_eqb_refl in Hw. exact Hw. }
      destruct (product_shape x fx Px) as [(f & Hf & ->)|(u & w & Hu)].
      + pose proof Hf as Hf'. apply fac_cases in Hf'. destruct Hf' as [(e & z & -> & -> & _)|[(w & -> & ->)|(w & q & j & -> & -> & Hq & J1 & J0)]].
        * (* last factor a number: maybe the first one is a power *)
          destruct (product_shape c fc Pc) as [(g & Hg & ->)|(u & w & Hu)].
          -- pose proof Hg as Hg'. apply fac_cases in Hg'. destruct Hg' as [(e' & z' & -> & -> & _)|[(w & -> & ->)|(w & q & j & -> & -> & Hq & J1 & J0)]].
             ++ right. intros dd. apply silent_rest. repeat constructor; auto.
             ++ right. intros dd. apply silent_rest. repeat constructor; auto.
             ++ specialize (R614 (EReal e) w q eq_refl). destruct (String.eqb w v) eqn:Ew.
                ** apply String.eqb_eq in Ew. subst w. left. eexists. split.
                   { intros dd. unfold three. rewrite first_no by reflexivity. apply first_yes. exact R614. }
                   cbn [app] in Et. subst ta. eapply res_first; eauto. apply Inc; auto. now left.
                ** right. intros dd. apply silent_rest. repeat constructor; auto.
          -- right. intros dd. subst c. apply silent_rest. repeat constructor; auto.
        * destruct (String.eqb w v) eqn:Ew.
          -- apply String.eqb_eq in Ew. subst w. left. exists (EMul c (EExp (EVar v) (real 2))). split.
             ++ intros dd. apply first_yes. unfold mul_591. cbn -[m_eq String.eqb]. now rewrite m_eq_var, String.eqb_refl, bindok.
             ++ destruct (Last _ Hf) as (l0 & t0 & -> & F & B). eapply res_last; eauto. apply fac_exp; [exact lit2|cbn; lia|cbn; lia].
          -- assert (S591 : mul_591 (EMul c (EVar w)) (EVar v) = ([], Ok None)).
             { apply (R591 _ Hf). intros H. injection H as ->. rewrite String.eqb_refl in Ew. discriminate. }
             destruct (product_shape c fc Pc) as [(g & Hg & ->)|(u & w' & Hu)].
             ++ pose proof Hg as Hg'. apply fac_cases in Hg'. destruct Hg' as [(e' & z' & -> & -> & _)|[(w' & -> & ->)|(w' & q & j & -> & -> & Hq & J1 & J0)]].
                ** right. intros dd. apply silent_rest. repeat constructor; auto.
                ** right. intros dd. apply silent_rest. repeat constructor; auto.
                ** specialize (R614 (EVar w) w' q eq_refl). destruct (String.eqb w' v) eqn:Ew'.
                   --- apply String.eqb_eq in Ew'. subst w'. left. eexists. split.
                       { intros dd. unfold three. rewrite first_no by exact S591. apply first_yes. exact R614. }
                       cbn [app] in Et. subst ta. eapply res_first; eauto. apply Inc; auto. now left.
                   --- right. intros dd. apply silent_rest. repeat constructor; auto.
             ++ right. intros dd. subst c. apply silent_rest. repeat constructor; auto.
        * assert (S591 : mul_591 (EMul c (EExp (EVar w) (EReal q))) (EVar v) = ([], Ok None)).
          { apply (R591 _ Hf). intros H. injection H as -> ->. congruence. }
          assert (Kc : rcast pMulExp (EMul c (EExp (EVar w) (EReal q))) = Some (EMul c (EExp (EVar w) (EReal q)))) by reflexivity.
          specialize (R614 c w q Kc). destruct (String.eqb w v) eqn:Ew.
          -- apply String.eqb_eq in Ew. subst w. left. eexists. split.
             ++ intros dd. unfold three. rewrite first_no by exact S591. apply first_yes. exact R614.
             ++ destruct (Last _ Hf) as (l0 & t0 & -> & F & B). eapply res_last; eauto. apply Inc; auto. apply in_or_app. right. now left.
          -- right. intros dd. apply silent_rest. repeat constructor; auto.
      + (* the last factor is a product *)
        assert (S591 : mul_591 (EMul c x) (EVar v) = ([], Ok None)) by eauto.
        destruct (product_shape c fc Pc) as [(g & Hg & ->)|(u' & w' & Hu')].
        * destruct (First g Hg) as (g' & -> & Hx). subst x. destruct (fac_not_mul _ _ Hx u w eq_refl).
        * right. intros dd. subst c x. apply silent_rest. repeat constructor; auto.
    - (* a power *)
      assert (S591 : mul_591 (EMul c x) (EExp (EVar v) (EReal d)) = ([], Ok None)) by (apply R591no; exact Z1).
      assert (S614 : mul_614 (simpS n) (EMul c x) (EExp (EVar v) (EReal d)) = ([], Ok None)).
      { unfold mul_614. pairs; any1; [|discriminate].
        destruct (cast_mulexp _ _ _ Pa K1) as (e & w & q & -> & _). reflexivity. }
      assert (R626 : mul_626 (simpS n) (EMul c x) (EExp (EVar v) (EReal d)) =
        (q <- m_eq x (EVar v) ;;
         if q then ([], Ok (Some (EMul c (EExp x (EReal (n_add d n1))))))
         else q' <- m_eq c (EVar v) ;; if q' then ([], Ok (Some (EMul x (EExp c (EReal (n_add d n1)))))) else no)%M) by reflexivity.
      assert (Raise : forall j, In (Some v, 1) ta -> j = join (Some v) 1 z -> fac (EExp (EVar v) (EReal (n_add d n1))) (Some v, j)).
      { intros j Hi ->. apply fac_exp; [|cbn -[Z.add]; lia|cbn -[Z.add]; lia]. cbn -[Z.add]. rewrite Z.add_comm.
        apply (il_add _ _ _ IL); auto using lit1. rewrite Z.add_comm.
        specialize (Hw (Some v)). rewrite amount_app, (amount_nodup _ _ _ D Hi), amount_one, name_eqb_refl in Hw. exact Hw. }
      assert (Var : forall e f, fac e f -> m_eq e (EVar v) = ([], Ok true) /\ e = EVar v /\ f = (Some v, 1) \/ m_eq e (EVar v) = ([], Ok false)).
      { intros e f Hf. rewrite (m_eq_fac e (EVar v) f _ Hf (fac_var v)). destruct (name_eqb _ _ && _) eqn:K; [left|now right].
        apply fac_eqb_eq in K. split; [reflexivity|]. split; [|exact K]. subst f. apply fac_cases in Hf.
        destruct Hf as [(? & ? & _ & Hf & _)|[(w & -> & Hf)|(w & q & j & _ & Hf & _ & J & _)]]; [discriminate|congruence|injection Hf as _ <-; congruence]. }
      assert (Cases : m_eq x (EVar v) = ([], Ok true) /\ x = EVar v \/ m_eq x (EVar v) = ([], Ok false)).
      { destruct (product_shape x fx Px) as [(f & Hf & _)|(u & w & ->)]; [|right; eapply m_eq_mul_l; apply fac_var].
        destruct (Var x f Hf) as [(V1 & V2 & _)|V]; auto. }
      destruct Cases as [[M ->]|M].
      + left. exists (EMul c (EExp (EVar v) (EReal (n_add d n1)))). split.
        * intros dd. unfold three. rewrite first_no by exact S591. rewrite first_no by exact S614. apply first_yes. rewrite R626, M. reflexivity.
        * destruct (Last _ (fac_var v)) as (l0 & t0 & -> & F & B). eapply res_last; eauto. apply Raise; auto. apply in_or_app. right. now left.
      + rewrite M, bindok in R626. destruct (product_shape c fc Pc) as [(g & Hg & ->)|(u & w & Hu)].
        * destruct (Var c g Hg) as [(V1 & -> & ->)|V].
          -- left. exists (EMul x (EExp (EVar v) (EReal (n_add d n1)))). split.
             ++ intros dd. unfold three. rewrite first_no by exact S591. rewrite first_no by exact S614. apply first_yes. rewrite R626, V1. reflexivity.
             ++ destruct (First _ Hg) as (g & -> & Hx). eapply res_first; eauto. apply Raise; auto. now left.
          -- right. intros dd. rewrite V in R626. apply silent_rest. repeat constructor; auto.
        * right. intros dd. subst c. rewrite (m_eq_mul_l (EVar v) u w _ (fac_var v)) in R626. apply silent_rest. repeat constructor; auto.
  Qed.

  (** ** Products *)
  Lemma amount_single m ta : amount m ta <> unit m -> In m (names ta).
  Proof.
    intros H. destruct (in_dec (fun a b => match name_eqb a b as q return name_eqb a b = q -> _ with
      | true => fun E => left (proj1 (name_eqb_eq a b) E)
      | false => fun E => right (proj1 (name_eqb_neq a b) E) end eq_refl) m (names ta)) as [Hi|Hn]; auto.
    exfalso. apply H. now apply amount_notin.
  Qed.
  Lemma name_dec (a b : option string) : {a = b} + {a <> b}.
  Proof. destruct (name_eqb a b) eqn:K; [left; now apply name_eqb_eq|right; now apply name_eqb_neq]. Qed.

  (* what is needed for the final step *)
  Lemma lit_kept ta tb : NoDup (names ta) -> NoDup (names tb) -> (forall z, In (None, z) (ta ++ tb) -> z <> 0 /\ z <> 1) ->
    (In None (names ta) -> In None (names tb) -> amount None ta <> amount None tb) ->
    In None (names (ta ++ tb)) -> amount None (ta ++ tb) <> 1.
  Proof.
    intros Da Db Hz Hne Hi. rewrite amount_app. cbn -[Z.mul amount].
    assert (V : forall t, NoDup (names t) -> In None (names t) -> In (None, amount None t) t).
    { intros t Dt Ht. unfold names in Ht. apply in_map_iff in Ht. destruct Ht as ([m z] & Hm & Ht). cbn in Hm. subst m.
      now rewrite (amount_nodup None z t Dt Ht). }
    rewrite names_app, in_app_iff in Hi.
    destruct (in_dec name_dec None (names ta)) as [Ia|Ia], (in_dec name_dec None (names tb)) as [Ib|Ib].
    - destruct (Hz _ (in_or_app _ _ _ (or_introl (V ta Da Ia)))). destruct (Hz _ (in_or_app _ _ _ (or_intror (V tb Db Ib)))).
      specialize (Hne Ia Ib). intros K. apply Hne. apply Z.eq_mul_1 in K as K1. destruct K1 as [K1|K1]; lia.
    - rewrite (amount_notin None tb Ib). cbn -[Z.mul amount]. rewrite Z.mul_1_r. apply (Hz _ (in_or_app _ _ _ (or_introl (V ta Da Ia)))).
    - rewrite (amount_notin None ta Ia). cbn -[Z.mul amount]. rewrite Z.mul_1_l. apply (Hz _ (in_or_app _ _ _ (or_intror (V tb Db Ib)))).
    - tauto.
  Qed.
  Lemma settled_lits r tr z : settled r tr -> In (None, z) tr -> z <> 0 /\ z <> 1.
  Proof.
    intros (l & F & _ & _) Hi. induction F as [|e f l tr Hf F IH]; [contradiction|]. destruct Hi as [->|Hi]; auto.
    inversion Hf; auto.
  Qed.
  Lemma two_names c x ta tb : settled (EMul c x) ta -> exists u v, u <> v /\ In u (names (ta ++ tb)) /\ In v (names (ta ++ tb)).
  Proof.
    intros H. pose proof (settled_product _ _ H) as P. destruct (settled_mul c x ta H) as (D & _).
    inversion P as [e f Hf|? ? fc fx Hc Hx]; subst; [destruct (fac_not_mul _ _ Hf c x eq_refl)|].
    apply product_nonempty in Hc, Hx. destruct fc as [|f fc], fx as [|g fx]; try congruence.
    exists (fst f), (fst g). rewrite names_app in D. cbn [names map app] in D. inversion D as [|? ? Hn _]; subst.
    rewrite !names_app, !in_app_iff. split; [|cbn [names map In]; tauto]. intros K. apply Hn. rewrite in_app_iff. right. left. congruence.
  Qed.
  Lemma settled_shape r tr : settled r tr -> (exists f, fac r f /\ tr = [f]) \/ exists u v, r = EMul u v.
  Proof. intros H. apply product_shape with (fs := tr). now apply settled_product. Qed.

  Definition mul_ok n a b (ta tb : list factor) : Prop := exists r, mul_run n a b = ([], Ok r) /\ res r (ta ++ tb).
  Lemma rest_res n a b ta tb : settled a ta -> settled b tb -> roomy (ta ++ tb) ->
    (In None (names ta) -> In None (names tb) -> amount None ta <> amount None tb) ->
    (exists u v, u <> v /\ In u (names (ta ++ tb)) /\ In v (names (ta ++ tb))) ->
    exists r, mul_rest (simpS n) a b = ([], Ok r) /\ res r (ta ++ tb).
  Proof.
    intros Ha Hb Hw Hn H2. destruct (mul_rest_ok n a b ta tb) as (l & r & tr & R & B & F & D & St & _); auto using settled_product.
    - apply lit_kept; auto; [destruct Ha as (? & _ & ? & _); assumption|destruct Hb as (? & _ & ? & _); assumption|]. intros z Hz. apply in_app_or in Hz. destruct Hz as [Hz|Hz]; [exact (settled_lits a ta z Ha Hz)|exact (settled_lits b tb z Hb Hz)].
    - exists r. split; [exact R|]. exists tr. split; [|exact St]. exists l. auto.
  Qed.

  Lemma mul_core n a b ta tb : settled a ta -> settled b tb -> easy ta tb -> roomy (ta ++ tb) -> mul_ok n a b ta tb.
  Proof.
    intros Ha Hb He Hw. pose proof (settled_product _ _ Ha) as Pa. pose proof (settled_product _ _ Hb) as Pb.
    assert (Dis : disjoint ta tb -> mul_ok n a b ta tb).
    { intros Hd. unfold mul_ok. rewrite silent_rest by (eapply disjoint_silent; eauto). apply rest_res; auto.
      - intros H1 H2. destruct (Hd None H1 H2).
      - pose proof (product_nonempty _ _ Pa). pose proof (product_nonempty _ _ Pb).
        destruct ta as [|f ta], tb as [|g tb]; try congruence. exists (fst f), (fst g). rewrite names_app, !in_app_iff. cbn.
        split; [|tauto]. intros K. apply (Hd (fst f)); [now left|]. left. congruence. }
    destruct (settled_shape a ta Ha) as [([m j] & Hf & ->)|(c & x & ->)], (settled_shape b tb Hb) as [([m' k] & Hg & ->)|(d & y & ->)].
    - destruct (name_dec m m') as [<-|Hne].
      2: { apply Dis. intros u [<-|[]] [H|[]]. cbn in H. congruence. }
      apply factors_ok; auto.
      + destruct He as [He|[(n' & k' & E & He)|(n' & k' & E & He)]].
        * destruct (He m); now left.
        * injection E as <- <-. rewrite amount_one in He. cbn [fst snd] in He. rewrite name_eqb_refl in He. lia.
        * injection E as <- <-. rewrite amount_one in He. cbn [fst snd] in He. rewrite name_eqb_refl in He. lia.
      + specialize (Hw m). rewrite amount_app, !amount_one in Hw. cbn [fst snd] in Hw. now rewrite name_eqb_refl in Hw.
    - assert (Hk : j = 1 \/ amount m tb <> j \/ disjoint [(m, j)] tb).
      { destruct He as [He|[(n' & k' & -> & He)|(n' & k' & E & He)]]; [tauto| |injection E as <- <-; tauto].
        exfalso. apply settled_mul in Hb as (_ & Hl & Hr). inversion Pb as [? ? Hq|? ? t1 t2 P1 P2]; subst; [exact (fac_not_mul _ _ Hq _ _ eq_refl)|].
        apply product_nonempty in P1, P2. destruct t1 as [|? [|]], t2; try congruence; discriminate. }
      destruct (in_dec name_dec m (names tb)) as [Hi|Hi].
      2: { apply Dis. intros u [<-|[]]. exact Hi. }
      assert (Hk' : j = 1 \/ amount m tb <> j).
      { destruct Hk as [Hk|[Hk|Hk]]; auto. destruct (Hk m); [now left|exact Hi]. }
      unfold mul_ok. rewrite (proj2 (comp_first (simpS n) d y tb a (m, j) _ Pb Hf)).
      assert (Hw' : roomy (tb ++ [(m, j)])) by (intros u; rewrite amount_swap; apply Hw).
      destruct (three_ok n d y tb a m j Hb Hf Hk' Hw') as [(r & R & S)|R].
      + exists r. split; [apply R|]. eapply res_settles; [exact S|apply settles_swap].
      + rewrite R. apply rest_res; auto.
        * intros H1 H2. destruct H1 as [H1|[]]; cbn in H1; subst m. rewrite amount_one, name_eqb_refl. cbn [snd].
          destruct Hk' as [->|Hk']; [|congruence]. inversion Hf; subst; congruence.
        * destruct (two_names d y tb [(m, j)] Hb) as (u & v & Huv & Hu & Hv). exists u, v. rewrite names_app, in_app_iff in Hu, Hv. rewrite names_app, !in_app_iff. tauto.
    - assert (Hk : k = 1 \/ amount m' ta <> k \/ disjoint ta [(m', k)]).
      { destruct He as [He|[(n' & k' & E & He)|(n' & k' & -> & He)]]; [tauto|injection E as <- <-; tauto|].
        exfalso. inversion Pa as [? ? Hq|? ? t1 t2 P1 P2]; subst; [exact (fac_not_mul _ _ Hq _ _ eq_refl)|].
        apply product_nonempty in P1, P2. destruct t1 as [|? [|]], t2; try congruence; discriminate. }
      destruct (in_dec name_dec m' (names ta)) as [Hi|Hi].
      2: { apply Dis. intros u Hu [<-|[]]. exact (Hi Hu). }
      assert (Hk' : k = 1 \/ amount m' ta <> k).
      { destruct Hk as [Hk|[Hk|Hk]]; auto. destruct (Hk m'); [exact Hi|now left]. }
      unfold mul_ok. rewrite (proj1 (comp_first (simpS n) c x ta b (m', k) _ Pa Hg)).
      destruct (three_ok n c x ta b m' k Ha Hg Hk' Hw) as [(r & R & S)|R].
      + exists r. split; [apply R|exact S].
      + rewrite R. apply rest_res; auto.
        * intros H1 H2. destruct H2 as [H2|[]]; cbn in H2; subst m'. rewrite amount_one, name_eqb_refl. cbn [snd].
          destruct Hk' as [->|Hk']; [|congruence]. inversion Hg; subst; congruence.
        * apply (two_names c x ta [(m', k)] Ha).
    - apply Dis. destruct He as [He|[(n' & k' & -> & _)|(n' & k' & -> & _)]]; [exact He| |]; exfalso.
      + inversion Pb as [? ? Hq|? ? t1 t2 P1 P2]; subst; [exact (fac_not_mul _ _ Hq _ _ eq_refl)|].
        apply product_nonempty in P1, P2. destruct t1 as [|? [|]], t2; try congruence; discriminate.
      + inversion Pa as [? ? Hq|? ? t1 t2 P1 P2]; subst; [exact (fac_not_mul _ _ Hq _ _ eq_refl)|].
        apply product_nonempty in P1, P2. destruct t1 as [|? [|]], t2; try congruence; discriminate.
  Qed.

  (** ** Whole expressions *)
  Lemma simp_fac n e f : fac e f -> simp (S (S n)) prefer e = ([], Ok e).
  Proof.
    intros H. facs H; [reflexivity|reflexivity|]. cbn -[n0 n1].
    rewrite (eqb_lit _ _ _ _ Hc lit0), (eqb_lit _ _ _ _ Hc lit1).
    assert (K : (k =? 0) = false) by (apply Z.eqb_neq; lia). apply Z.eqb_neq in K1. now rewrite K, K1.
  Qed.
  Lemma settles_single r n k : NoDup (names r) -> r <> [] -> settles r [(n, k)] -> r = [(n, k)].
  Proof.
    intros D Hr [S1 S2]. destruct r as [|[m v] [|[m' v'] r]]; [congruence| |].
    - assert (Hm : m = n) by (destruct (S2 m) as [H|[]]; [now left|exact (eq_sym H)]). subst m. specialize (S1 n).
      rewrite !amount_one in S1. cbn [fst snd] in S1. rewrite name_eqb_refl in S1. cbv iota in S1. now rewrite S1.
    - exfalso. assert (Hm : m = n) by (destruct (S2 m) as [H|[]]; [now left|exact (eq_sym H)]).
      assert (Hm' : m' = n) by (destruct (S2 m') as [H|[]]; [right; now left|exact (eq_sym H)]).
      subst m m'. inversion D as [|? ? Hn _]; subst. apply Hn. now left.
  Qed.
  Lemma easy_settled a b ra rb ta tb : settled a ra -> settled b rb -> settles ra ta -> settles rb tb -> easy ta tb -> easy ra rb.
  Proof.
    intros Ha Hb Sa Sb He.
    assert (Na : ra <> []) by (eapply product_nonempty, settled_product; eauto).
    assert (Nb : rb <> []) by (eapply product_nonempty, settled_product; eauto).
    destruct Ha as (? & _ & Da & _), Hb as (? & _ & Db & _).
    destruct He as [He|[(n & k & -> & He)|(n & k & -> & He)]].
    - left. intros n H1 H2. apply (He n); [now apply (proj2 Sa)|now apply (proj2 Sb)].
    - right. left. exists n, k. split; [now apply settles_single|]. now rewrite (proj1 Sa).
    - right. right. exists n, k. split; [now apply settles_single|]. now rewrite (proj1 Sb).
  Qed.
  Lemma yields_mul a b a' b' ta tb : yields prefer a a' -> res a' ta -> yields prefer b b' -> res b' tb ->
    easy ta tb -> roomy (ta ++ tb) -> exists r, yields prefer (EMul a b) r /\ res r (ta ++ tb).
  Proof.
    intros (n & Hn) (ra & Sa & Ra) (m & Hm) (rb & Sb & Rb) He Hw.
    destruct (mul_core (max n m) a' b' ra rb Sa Sb) as (r & Hr & Hres).
    - eapply easy_settled; eauto.
    - eapply roomy_settles; [exact Hw|]. now apply settles_app.
    - exists r. split.
      + exists (S (S (S (max n m)))). change (simp (S (S (S (max n m)))) prefer (EMul a b)) with
          (visit_mul (simpS (max n m)) prefer a b). unfold visit_mul.
        rewrite (operands_run _ _ _ _ a' b'); [exact Hr| |]; eapply yields_ge; eauto; lia.
      + eapply res_settles; [exact Hres|]. now apply settles_app.
  Qed.
  Lemma easy_product_product e fs : easy_product lit e fs -> product e fs.
  Proof. induction 1; constructor; auto. Qed.
  Lemma easy_yields e fs : easy_product lit e fs -> roomy fs -> exists r, yields prefer e r /\ res r fs.
  Proof.
    intros H. induction H as [e f Hf|a b fa fb Ha IHa Hb IHb He]; intros Hw.
    - exists e. split; [exists 2%nat; eapply simp_fac; eauto|]. exists [f]. split; [now apply settled_fac|apply settles_refl].
    - pose proof (product_fine _ _ (easy_product_product _ _ Ha)) as Fa. pose proof (product_fine _ _ (easy_product_product _ _ Hb)) as Fb.
      destruct (IHa (roomy_le _ _ Hw Fa Fb)) as (a' & Ya & Ra).
      destruct IHb as (b' & Yb & Rb).
      { apply (roomy_le fb fa); auto. intros n. rewrite amount_swap. apply Hw. }
      eapply yields_mul; eauto.
  Qed.

  (** Simplifying a product of unlike factors regroups it. *)
  Lemma facs_not_mul l fl : Forall2 fac l fl -> Forall (not_node OMul) l.
  Proof. intros H. induction H as [|e f l fl Hf H IH]; constructor; auto. exact (fac_not_mul e f Hf). Qed.
  Lemma unlike_yields e fs : product e fs -> NoDup (names fs) -> roomy fs ->
    exists r, yields prefer e r /\ product r fs /\ flat OMul r = flat OMul e /\
      ((exists f, fac e f) \/ build OMul (flat OMul e) = Some r).
  Proof.
    intros H. induction H as [e f Hf|a b fa fb Ha IHa Hb IHb]; intros D Hw.
    - exists e. split; [exists 2%nat; eapply simp_fac; eauto|]. split; [now constructor|]. split; [reflexivity|]. left. eauto.
    - rewrite names_app in D. destruct (nodup_app _ _ D) as (Da & Db & Hd). rewrite <- names_app in D.
      pose proof (product_fine _ _ Ha) as Fa. pose proof (product_fine _ _ Hb) as Fb.
      destruct (IHa Da (roomy_le _ _ Hw Fa Fb)) as (a' & (n & Ya) & Pa & La & _).
      destruct (IHb Db) as (b' & (m & Yb) & Pb & Lb & _).
      { apply (roomy_le fb fa); auto. intros u. rewrite amount_swap. apply Hw. }
      destruct (mul_rest_ok (max n m) a' b' fa fb Pa Pb Hw) as (l & r & tr & R & B & F & _ & _ & El).
      { intros Hi K. pose proof (product_flat _ _ Ha) as F1. pose proof (product_flat _ _ Hb) as F2.
        pose proof (Forall2_app F1 F2) as F. unfold names in Hi. apply in_map_iff in Hi. destruct Hi as ([u z] & Hu & Hi). cbn in Hu. subst u.
        rewrite (amount_nodup None z _ D Hi) in K. subst z. clear - F Hi. induction F as [|e f l fs Hf F IH]; [contradiction|].
        destruct Hi as [->|Hi]; auto. inversion Hf; congruence. }
      { pose proof (product_nonempty _ _ Pa). pose proof (product_nonempty _ _ Pb).
        destruct fa as [|f fa], fb as [|g fb]; try congruence. exists (fst f), (fst g). rewrite names_app, !in_app_iff. cbn.
        split; [|tauto]. intros K. apply (Hd (fst f)); [now left|]. left. congruence. }
      specialize (El D). subst l. rewrite La, Lb in *.
      exists r. split; [|split; [|split; [|right; exact B]]].
      + exists (S (S (S (max n m)))). change (simp (S (S (S (max n m)))) prefer (EMul a b)) with
          (visit_mul (simpS (max n m)) prefer a b). unfold visit_mul.
        rewrite (operands_run _ _ _ _ a' b'); [|eapply yields_ge; eauto; lia|eapply yields_ge; eauto; lia].
        rewrite silent_rest; [exact R|]. eapply disjoint_silent; eauto.
      + eapply tree_product; [apply build_tree; exact B|]. apply Forall2_app; now apply product_flat.
      + pose proof (Forall2_app (product_flat _ _ Ha) (product_flat _ _ Hb)) as F'.
        destruct (build_roundtrip OMul _ (facs_not_mul _ _ F')) as [K1 K2].
        destruct (le_lt_dec 2 (length (flat OMul a ++ flat OMul b))) as [L|L]; [|rewrite (K1 L) in B; discriminate].
        destruct (K2 L) as (u & v & B' & Fl). rewrite B in B'. injection B' as ->. exact Fl.
  Qed.

  Lemma settled_again r tr : settled r tr -> roomy tr -> yields prefer r r.
  Proof.
    intros H Hw. pose proof (settled_product _ _ H) as P. destruct H as (l & F & D & B).
    destruct (unlike_yields r tr P D Hw) as (r' & Y & _ & _ & K).
    destruct B as [->|B].
    - inversion F as [|? f ? ? Hf _]; subst. exists 2%nat. eapply simp_fac; eauto.
    - enough (r' = r) by congruence.
      destruct (build_roundtrip OMul l (facs_not_mul _ _ F)) as [K1 K2].
      destruct (le_lt_dec 2 (length l)) as [L|L]; [|rewrite (K1 L) in B; discriminate].
      destruct (K2 L) as (u & v & B' & Fl). rewrite B in B'. injection B' as ->.
      destruct K as [(f & Hf)|K]; [destruct (fac_not_mul _ _ Hf u v eq_refl)|].
      cbn [flat binop_eqb] in K. unfold flatten in Fl. rewrite Fl, B in K. congruence.
  Qed.

  Theorem easy_gathered e fs : easy_product lit e fs -> roomy fs ->
    exists l r, yields prefer e r /\ tree_over OMul (Nat.log2_up (length l)) l r /\ gathered lit l fs /\ yields prefer r r.
  Proof.
    intros H Hw. destruct (easy_yields e fs H Hw) as (r & Y & tr & St & Sg). pose proof (settled_again r tr St (roomy_settles _ _ Hw Sg)) as Y'.
    destruct St as (l & F & D & B). exists l, r. split; [exact Y|]. split; [|split; [|exact Y']].
    - destruct B as [->|B]; [constructor|now apply build_tree].
    - exists tr. split; [exact F|]. split; [exact D|]. apply Sg.
  Qed.

  (** ** Equals on gathered products *)
  Lemma find_eq_yes (x : E) f m fm : fac x f -> Forall2 fac m fm -> In f fm -> find_eq (equals x) m = Some true.
  Proof.
    intros Hx H. induction H as [|y g m fm Hy H IH]; intros Hi; [destruct Hi|].
    destruct (equals_fac x y f g Hx Hy) as [E1 _]. cbn [find_eq]. rewrite E1. destruct (name_eqb _ _ && _) eqn:K; [reflexivity|].
    destruct Hi as [Hi|Hi]; [|auto]. symmetry in Hi. apply fac_eqb_eq in Hi. congruence.
  Qed.
  Lemma all_found_yes (l : list E) fl m fm : Forall2 fac l fl -> Forall2 fac m fm -> incl fl fm -> all_found l m = Some true.
  Proof.
    intros Hl Hm Hi. induction Hl as [|x f l fl Hx Hl IH]; [reflexivity|]. cbn [all_found].
    rewrite (find_eq_yes x f m fm); auto; [|apply Hi; now left]. apply IH. intros k Hk. apply Hi. now right.
  Qed.
  Lemma equals_incl (a1 a2 b1 b2 : E) fa fb : product (EMul a1 a2) fa -> product (EMul b1 b2) fb -> incl fa fb ->
    equals (EMul a1 a2) (EMul b1 b2) = Some true.
  Proof.
    intros Ha Hb Hi. pose proof (product_flat _ _ Ha) as Fa. pose proof (product_flat _ _ Hb) as Fb.
    rewrite equals_bin. cbn [binop_eqb assoc].
    inversion Ha as [e f Hf|? ? f1 f2 H1 H2]; subst; [destruct (fac_not_mul _ _ Hf _ _ eq_refl)|].
    inversion Hb as [e f Hf|? ? g1 g2 G1 G2]; subst; [destruct (fac_not_mul _ _ Hf _ _ eq_refl)|].
    destruct (equals_product a1 b1 f1 g1 H1 G1) as (q1 & -> & _). destruct (equals_product a2 b2 f2 g2 H2 G2) as (q2 & -> & _).
    destruct (q1 && q2); [reflexivity|]. unfold flatten. now apply (all_found_yes _ (f1 ++ f2) _ (g1 ++ g2)).
  Qed.
  Lemma fac_not_unit e f : fac e f -> snd f <> SpecProd.unit (fst f).
  Proof. intros H. destruct H; cbn; [assumption|lia]. Qed.
  Lemma facs_in l fl f : Forall2 fac l fl -> In f fl -> exists e, fac e f.
  Proof. intros H. induction H as [|e g l fl He H IH]; intros []; subst; eauto. Qed.
  Lemma amount_in n fs : amount n fs <> SpecProd.unit n -> In n (names fs).
  Proof.
    intros H. destruct (in_dec (fun a b => match Bool.bool_dec (name_eqb a b) true with
      left K => left (proj1 (name_eqb_eq a b) K) | right K => right (fun Q => K (proj2 (name_eqb_eq a b) Q)) end) n (names fs)) as [Hi|Hi]; [exact Hi|].
    destruct H. now apply amount_notin.
  Qed.
  Lemma same_amounts_incl l fl m fm : Forall2 fac l fl -> Forall2 fac m fm -> NoDup (names fl) -> NoDup (names fm) ->
    (forall n k, In (n, k) fl -> amount n fm = amount n fl) -> incl fl fm.
  Proof.
    intros Fl Fm Dl Dm H (n & k) Hi. destruct (facs_in _ _ _ Fl Hi) as (e & He). apply fac_not_unit in He. cbn [fst snd] in He.
    pose proof (amount_nodup n k fl Dl Hi) as A. pose proof (H n k Hi) as A'. rewrite A in A'.
    assert (In n (names fm)) as Hn by (apply amount_in; congruence).
    apply in_map_iff in Hn. destruct Hn as ((n' & k') & E1 & E2). cbn in E1. subst n'.
    pose proof (amount_nodup n k' fm Dm E2). replace k with k' by congruence. exact E2.
  Qed.
  Lemma names_nodup fs : NoDup (names fs) -> NoDup fs.
  Proof. apply NoDup_map_inv. Qed.
  Lemma tree_one d (l : list E) r : tree_over OMul d l r -> length l = 1%nat -> l = [r].
  Proof.
    intros H. destruct H as [d e|d l1 l2 a b H1 H2]; [reflexivity|]. intros L. rewrite app_length in L.
    assert (K : forall d' l' (e' : E), tree_over OMul d' l' e' -> (1 <= length l')%nat)
      by (intros d' l' e' K; induction K; [cbn; lia|rewrite app_length; lia]).
    apply K in H1. apply K in H2. lia.
  Qed.
  Lemma tree_two d (l : list E) r : tree_over OMul d l r -> length l <> 1%nat -> exists a b, r = EMul a b.
  Proof. intros H. destruct H; [intros K; destruct K; reflexivity|eauto]. Qed.

  Theorem gathered_equal d d' l r l' r' fs fs' : tree_over OMul d l r -> tree_over OMul d' l' r' ->
    gathered lit l fs -> gathered lit l' fs' -> (forall n, amount n fs = amount n fs') -> equals r r' = Some true.
  Proof.
    intros T T' (fl & Fl & Dl & Al) (fm & Fm & Dm & Am) H.
    assert (I1 : incl fl fm) by (eapply same_amounts_incl; eauto; intros n k _; now rewrite Al, Am).
    assert (I2 : incl fm fl) by (eapply same_amounts_incl; eauto; intros n k _; now rewrite Al, Am).
    assert (L : length fl = length fm).
    { apply Nat.le_antisymm; apply NoDup_incl_length; auto using names_nodup. }
    pose proof (Forall2_length _ _ _ Fl) as L1. pose proof (Forall2_length _ _ _ Fm) as L2.
    pose proof (tree_product _ _ _ _ T Fl) as P. pose proof (tree_product _ _ _ _ T' Fm) as P'.
    destruct (Nat.eq_dec (length l) 1) as [K|K].
    - pose proof (tree_one _ _ _ T K). pose proof (tree_one _ _ _ T' ltac:(lia)). subst l l'.
      inversion Fl as [|? f ? ? Hf Hn]; subst. inversion Hn; subst. inversion Fm as [|? g ? ? Hg Hn']; subst. inversion Hn'; subst.
      destruct (equals_fac r r' f g Hf Hg) as [-> _]. f_equal. apply fac_eqb_eq. destruct (I1 f (or_introl eq_refl)) as [<-|[]]. reflexivity.
    - destruct (tree_two _ _ _ T K) as (a & b & ->). destruct (tree_two _ _ _ T' ltac:(lia)) as (a' & b' & ->).
      eapply equals_incl; eauto.
  Qed.
  Theorem gathered_equals d d' l r l' r' fs fs' : tree_over OMul d l r -> tree_over OMul d' l' r' ->
    gathered lit l fs -> gathered lit l' fs' ->
    exists q, equals r r' = Some q /\ (q = true -> forall n, amount n fs <> SpecProd.unit n -> amount n fs' = amount n fs).
  Proof.
    intros T T' (fl & Fl & Dl & Al) (fm & Fm & Dm & Am).
    pose proof (tree_product _ _ _ _ T Fl) as P. pose proof (tree_product _ _ _ _ T' Fm) as P'.
    destruct (equals_product r r' fl fm P P') as (q & Eq & K). exists q. split; [exact Eq|]. intros Hq n Hn. specialize (K Hq).
    rewrite <- Al in Hn. apply amount_in in Hn as Hi. apply in_map_iff in Hi. destruct Hi as ((n' & k) & E1 & E2). cbn in E1. subst n'.
    rewrite <- Al, <- Am, (amount_nodup n k fl Dl E2). apply amount_nodup; auto.
  Qed.
End Runs.
