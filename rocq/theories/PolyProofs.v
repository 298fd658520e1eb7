(** Proofs about sums of integer terms (SpecPoly.v). *)
From Coq Require Import String Bool Arith ZArith List Lia Permutation.
From Verif Require Import Base Num Expr Ghost Simplify Calculus Spec SpecPoly TreeProofs MonadProofs FuelProofs.
Import ListNotations.
Open Scope Z_scope.
Open Scope list_scope.

(** ** Lists of terms *)

Lemma key_eqb_eq a b : key_eqb a b = true <-> a = b.
Proof.
  destruct a as [[x k]|], b as [[y j]|]; simpl; split; intros H; try discriminate; auto.
  - apply andb_prop in H. destruct H as [H1 H2]. apply String.eqb_eq in H1. apply Z.eqb_eq in H2. congruence.
  - injection H as -> ->. now rewrite String.eqb_refl, Z.eqb_refl.
Qed.
Lemma key_eqb_refl a : key_eqb a a = true.
Proof. now apply key_eqb_eq. Qed.
Lemma key_eqb_neq a b : key_eqb a b = false <-> a <> b.
Proof. rewrite <- key_eqb_eq. destruct (key_eqb a b); split; congruence. Qed.
Lemma key_eqb_sym a b : key_eqb a b = key_eqb b a.
Proof.
  destruct (key_eqb a b) eqn:E; symmetry; [apply key_eqb_eq; symmetry; now apply key_eqb_eq|].
  apply key_eqb_neq. apply key_eqb_neq in E. congruence.
Qed.

Lemma total_app k a b : total k (a ++ b) = total k a + total k b.
Proof. induction a as [|t a IH]; simpl; [reflexivity|]. rewrite IH. lia. Qed.
Lemma weight_app a b : weight (a ++ b) = weight a + weight b.
Proof. induction a as [|t a IH]; simpl; [reflexivity|]. rewrite IH. lia. Qed.
Lemma weight_nonneg a : 0 <= weight a.
Proof. induction a as [|t a IH]; simpl; lia. Qed.
Lemma keys_app a b : keys (a ++ b) = keys a ++ keys b.
Proof. apply map_app. Qed.
Lemma total_scale k z a : total k (scale z a) = z * total k a.
Proof. induction a as [|t a IH]; simpl; [lia|]. rewrite IH. destruct (key_eqb k (fst t)); lia. Qed.
Lemma weight_scale z a : weight (scale z a) = Z.abs z * weight a.
Proof. induction a as [|t a IH]; simpl; [lia|]. rewrite IH, Z.abs_mul. lia. Qed.
Lemma keys_scale z a : keys (scale z a) = keys a.
Proof. unfold keys, scale. rewrite map_map. reflexivity. Qed.
Lemma length_scale z a : length (scale z a) = length a.
Proof. apply map_length. Qed.
Lemma scale_app z a b : scale z (a ++ b) = scale z a ++ scale z b.
Proof. apply map_app. Qed.

Lemma total_notin k a : ~ In k (keys a) -> total k a = 0.
Proof.
  induction a as [|t a IH]; simpl; intros H; [reflexivity|].
  destruct (key_eqb k (fst t)) eqn:E.
  - apply key_eqb_eq in E. exfalso. apply H. left. congruence.
  - rewrite IH; tauto.
Qed.
Lemma total_in k a : total k a <> 0 -> In k (keys a).
Proof.
  intros H. destruct (in_dec (fun x y => match key_eqb x y as b return key_eqb x y = b -> _ with
    | true => fun E => left (proj1 (key_eqb_eq x y) E)
    | false => fun E => right (proj1 (key_eqb_neq x y) E) end eq_refl) k (keys a)) as [Hi|Hn]; auto.
  exfalso. apply H. now apply total_notin.
Qed.
Lemma total_nodup k z a : NoDup (keys a) -> In (k, z) a -> total k a = z.
Proof.
  induction a as [|t a IH]; simpl; intros H Hi; [contradiction|].
  inversion H as [|? ? Hn Hd]; subst. destruct Hi as [->|Hi]; simpl in *.
  - rewrite key_eqb_refl, total_notin by assumption. lia.
  - rewrite (IH Hd Hi). destruct (key_eqb k (fst t)) eqn:E; [|lia].
    apply key_eqb_eq in E. exfalso. apply Hn. rewrite <- E. change k with (fst (k, z)). now apply in_map.
Qed.

Lemma nodup_app {A} (a b : list A) : NoDup (a ++ b) -> NoDup a /\ NoDup b /\ forall x, In x a -> ~ In x b.
Proof.
  induction a as [|x a IH]; simpl; intros H; [repeat split; auto; constructor|].
  inversion H as [|? ? Hn Hd]; subst. rewrite in_app_iff in Hn. destruct (IH Hd) as (H1 & H2 & H3).
  repeat split; auto; [constructor; tauto|]. intros y [<-|Hy]; auto.
Qed.

Lemma Forall2_length {A B} (R : A -> B -> Prop) l m : Forall2 R l m -> length l = length m.
Proof. induction 1; simpl; congruence. Qed.

(** [refines tr ts]: combining like terms may turn [ts] into [tr]. *)
Definition refines (tr ts : list monomial) : Prop :=
  (forall k, total k tr = total k ts) /\
  (forall p, In (Some p) (keys tr) -> In (Some p) (keys ts)) /\
  weight tr <= weight ts /\ (length tr <= length ts)%nat.

Lemma refines_refl a : refines a a.
Proof. repeat split; auto; lia. Qed.
Lemma refines_trans a b c : refines a b -> refines b c -> refines a c.
Proof.
  intros (A1 & A2 & A3 & A4) (B1 & B2 & B3 & B4).
  repeat split; [intros k; now rewrite A1|auto|lia|lia].
Qed.
Lemma refines_app a b a' b' : refines a a' -> refines b b' -> refines (a ++ b) (a' ++ b').
Proof.
  intros (A1 & A2 & A3 & A4) (B1 & B2 & B3 & B4). repeat split.
  - intros k. now rewrite !total_app, A1, B1.
  - intros p. rewrite !keys_app, !in_app_iff. intros [H|H]; auto.
  - rewrite !weight_app. lia.
  - rewrite !app_length. lia.
Qed.
Lemma refines_scale z a b : refines a b -> refines (scale z a) (scale z b).
Proof.
  intros (A1 & A2 & A3 & A4). repeat split.
  - intros k. now rewrite !total_scale, A1.
  - now rewrite !keys_scale.
  - rewrite !weight_scale. apply Z.mul_le_mono_nonneg_l; lia.
  - now rewrite !length_scale.
Qed.
Lemma refines_two_left a b : refines a b -> (two_left a <-> two_left b).
Proof. intros (H & _). unfold two_left. split; intros (k & j & H1 & H2 & H3); exists k, j; rewrite H in *; auto; now rewrite !H. Qed.

Lemma apart_refines a b a' b' : apart a' b' -> refines a a' -> refines b b' ->
  (1 <= length a)%nat -> (1 <= length b)%nat -> apart a b.
Proof.
  intros H (A1 & A2 & A3 & A4) (B1 & B2 & B3 & B4) L1 L2. destruct H as [H|[H|(k & H1 & H2)]].
  - left. lia.
  - right. left. lia.
  - right. right. exists k. rewrite A1. split; auto.
Qed.
Lemma apart_scale z y a b : z <> 0 -> apart a b -> apart (scale z a) (scale y b).
Proof.
  intros Hz. unfold apart. rewrite !length_scale, !keys_scale. intros [H|[H|(k & H1 & H2)]]; auto.
  right. right. exists k. rewrite total_scale. split; auto. lia.
Qed.

(** Adding one term to a list of unlike terms. *)
Fixpoint insert (t : monomial) (st : list monomial) : list monomial :=
  match st with
  | [] => [t]
  | u :: st => if key_eqb (fst t) (fst u) then (fst u, snd u + snd t) :: st else u :: insert t st
  end.

Lemma total_insert k t st : total k (insert t st) = total k st + total k [t].
Proof.
  simpl. induction st as [|u st IH]; simpl; [lia|].
  destruct (key_eqb (fst t) (fst u)) eqn:E; simpl.
  - apply key_eqb_eq in E. rewrite E. destruct (key_eqb k (fst u)); lia.
  - rewrite IH. lia.
Qed.
Lemma weight_insert t st : weight (insert t st) <= weight st + Z.abs (snd t).
Proof. induction st as [|u st IH]; simpl; [lia|]. destruct (key_eqb (fst t) (fst u)); simpl; lia. Qed.
Lemma length_insert t st : (length (insert t st) <= S (length st))%nat.
Proof. induction st as [|u st IH]; simpl; [lia|]. destruct (key_eqb (fst t) (fst u)); simpl; lia. Qed.
Lemma keys_insert_in t st k : In k (keys (insert t st)) -> In k (keys st) \/ k = fst t.
Proof.
  induction st as [|u st IH]; simpl; [intros [H|H]; [right; congruence|contradiction]|].
  destruct (key_eqb (fst t) (fst u)); simpl; [tauto|]. intros [H|H]; [tauto|]. destruct (IH H); tauto.
Qed.
Lemma nodup_insert t st : NoDup (keys st) -> NoDup (keys (insert t st)).
Proof.
  induction st as [|u st IH]; simpl; intros H; [repeat constructor; auto|].
  inversion H as [|? ? Hn Hd]; subst. destruct (key_eqb (fst t) (fst u)) eqn:E; simpl; [exact H|].
  constructor; [|auto]. intros Hi. apply keys_insert_in in Hi. destruct Hi as [Hi|Hi]; [tauto|].
  apply key_eqb_neq in E. congruence.
Qed.

Definition collect (ts st : list monomial) : list monomial := fold_left (fun st t => insert t st) ts st.

Lemma collect_spec ts : forall st, NoDup (keys st) ->
  NoDup (keys (collect ts st)) /\ refines (collect ts st) (st ++ ts).
Proof.
  induction ts as [|t ts IH]; intros st H.
  - simpl. rewrite app_nil_r. split; auto using refines_refl.
  - simpl. destruct (IH (insert t st) (nodup_insert t st H)) as [H1 H2]. split; auto.
    eapply refines_trans; [exact H2|]. change (t :: ts) with ([t] ++ ts). rewrite app_assoc.
    apply refines_app; [|apply refines_refl]. repeat split.
    + intros k. rewrite total_insert, total_app. reflexivity.
    + intros p Hk. rewrite keys_app. apply in_or_app. simpl. apply keys_insert_in in Hk. destruct Hk; auto.
    + rewrite weight_app. simpl. pose proof (weight_insert t st). lia.
    + rewrite app_length. simpl. pose proof (length_insert t st). lia.
Qed.

Definition nonzero (t : monomial) : bool := negb (snd t =? 0).
Lemma filter_nonzero_refines ts : refines (filter nonzero ts) ts.
Proof.
  induction ts as [|t ts IH]; [apply refines_refl|]. destruct IH as (H1 & H2 & H3 & H4). cbn [filter].
  destruct (nonzero t) eqn:E; unfold nonzero in E; repeat split; cbn [keys map total weight fold_right length] in *.
  - intros k. fold (total k (filter nonzero ts)). fold (total k ts). now rewrite H1.
  - intros p [H|H]; [now left|right; auto].
  - fold (weight (filter nonzero ts)) (weight ts). lia.
  - lia.
  - intros k. fold (total k ts). rewrite H1. apply negb_false_iff, Z.eqb_eq in E. rewrite E.
    destruct (key_eqb k (fst t)); lia.
  - intros p H. right. auto.
  - fold (weight ts). lia.
  - lia.
Qed.
Lemma nodup_filter f (ts : list monomial) : NoDup (keys ts) -> NoDup (keys (filter f ts)).
Proof.
  induction ts as [|t ts IH]; simpl; intros H; [constructor|]. inversion H as [|? ? Hn Hd]; subst.
  destruct (f t); simpl; auto. constructor; auto. intros Hi. apply Hn. unfold keys in *.
  apply in_map_iff in Hi. destruct Hi as (u & <- & Hu). apply filter_In in Hu. now apply in_map.
Qed.
(** In a list of unlike terms, two are left iff two coefficients are not 0. *)
Lemma two_left_length ts : NoDup (keys ts) -> Forall (fun t => snd t <> 0) ts ->
  (two_left ts <-> (2 <= length ts)%nat).
Proof.
  intros Hd Hz. split.
  - intros (k & j & Hkj & Hk & Hj). apply total_in in Hk, Hj.
    destruct ts as [|t [|u ts]]; simpl in *; try lia; try contradiction.
    destruct Hk as [<-|[]], Hj as [<-|[]]. congruence.
  - destruct ts as [|t [|u ts]]; simpl; try lia. intros _.
    inversion Hz as [|? ? Z1 Hz']; subst. inversion Hz' as [|? ? Z2 _]; subst.
    exists (fst t), (fst u). split; [|split].
    + simpl in Hd. inversion Hd as [|? ? Hn _]; subst. intros E. apply Hn. rewrite E. now left.
    + rewrite (total_nodup (fst t) (snd t) _ Hd); [assumption|]. left. now destruct t.
    + rewrite (total_nodup (fst u) (snd u) _ Hd); [assumption|]. right. left. now destruct u.
Qed.

(** ** Runs of Simplify *)
Definition yields {num : Type} {N : NumOps num} (prefer : bool) (e r : expr num) : Prop :=
  exists n, simp n prefer e = ([], Ok r).
Lemma yields_ge {num} {N : NumOps num} prefer (e r : expr num) n m :
  simp n prefer e = ([], Ok r) -> (n <= m)%nat -> simp m prefer e = ([], Ok r).
Proof. intros H L. destruct (simp_mono n m prefer e L) as [E|E]; [rewrite H in E; discriminate|congruence]. Qed.

Section Runs.
  Context {num : Type} {N : NumOps num}.
  Variables (lit : num -> Z -> Prop) (ok : Z -> Prop).
  Hypothesis IL : IntLits N lit ok.
  Notation E := (expr num).
  Notation power := (power lit).
  Variable post : bool.
  Notation term := (term lit post).
  Notation plain := (plain lit post).
  Notation neat := (neat lit).

  Local Lemma okle x y : ok x -> Z.abs y <= Z.abs x -> ok y.
  Proof. apply (il_ok_le _ _ _ IL). Qed.
  Local Lemma lit1 : lit n1 1.
  Proof. apply (il_of_Z _ _ _ IL). eapply okle; [apply (il_ok_2 _ _ _ IL)|lia]. Qed.
  Local Lemma lit0 : lit n0 0.
  Proof. apply (il_of_Z _ _ _ IL). eapply okle; [apply (il_ok_2 _ _ _ IL)|lia]. Qed.
  Local Lemma litm1 : lit nm1 (-1).
  Proof. apply (il_of_Z _ _ _ IL). eapply okle; [apply (il_ok_2 _ _ _ IL)|lia]. Qed.
  Local Lemma lit2 : lit n2 2.
  Proof. apply (il_of_Z _ _ _ IL). apply (il_ok_2 _ _ _ IL). Qed.
  Local Lemma eqb_lit a b x y : lit a x -> lit b y -> n_eqb a b = (x =? y).
  Proof. apply (il_eqb _ _ _ IL). Qed.
  Local Lemma tiny_lit a x : lit a x -> tiny a = (x =? 0).
  Proof. apply (il_tiny _ _ _ IL). Qed.

  (** Comparison of powers. *)
  Lemma equals_power (p q : E) x k y j : power p x k -> power q y j ->
    equals p q = Some (key_eqb (Some (x, k)) (Some (y, j))) /\
    (key_eqb (Some (x, k)) (Some (y, j)) = true -> eq_strict p q = true).
  Proof.
    intros Hp Hq. destruct Hp as [x|x c k Hc K0 K1], Hq as [y|y d j Hd J0 J1]; cbn -[String.eqb Z.eqb].
    - rewrite andb_true_r. split; auto. intros ->. reflexivity.
    - apply Z.eqb_neq in J1. rewrite Z.eqb_sym, J1, andb_false_r. split; [reflexivity|discriminate].
    - apply Z.eqb_neq in K1. rewrite K1, andb_false_r. split; [reflexivity|discriminate].
    - rewrite (eqb_lit _ _ _ _ Hc Hd). split; [|intros H; apply andb_prop in H; destruct H as [-> ->]; reflexivity].
      destruct (String.eqb x y), (k =? j); reflexivity.
  Qed.
  Lemma m_eq_power (p q : E) x k y j : power p x k -> power q y j ->
    m_eq p q = ([], Ok (key_eqb (Some (x, k)) (Some (y, j)))).
  Proof.
    intros Hp Hq. destruct (equals_power p q x k y j Hp Hq) as [H1 H2]. unfold m_eq. rewrite H1.
    destruct (key_eqb _ _); cbn; [now rewrite H2|reflexivity].
  Qed.
  Lemma m_eq_false (a b : E) : equals a b = Some false -> m_eq a b = ([], Ok false).
  Proof. intros H. unfold m_eq. now rewrite H. Qed.

  (** ** Collecting the addends *)
  Inductive entry : E -> monomial -> Prop :=
  | en_const c z : lit c z -> entry (EReal c) (None, z)
  | en_pow c z p x k : lit c z -> power p x k -> entry (EMul (EReal c) p) (Some (x, k), z).

  Definition finds (f : E -> M (option E)) (t : monomial) (w : Z) : Prop :=
    forall v u, entry v u -> Z.abs (snd u) <= w -> exists o, f v = ([], Ok o) /\
      match o with
      | Some v' => key_eqb (fst t) (fst u) = true /\ entry v' (fst u, snd u + snd t)
      | None => key_eqb (fst t) (fst u) = false
      end.

  Lemma scan_entry f t w vals st : finds f t w -> Forall2 entry vals st -> weight st <= w ->
    exists o, scan f vals = ([], Ok o) /\
      match o with
      | Some vals' => Forall2 entry vals' (insert t st) /\ In (fst t) (keys st)
      | None => insert t st = st ++ [t]
      end.
  Proof.
    intros Hf H. induction H as [|v u vals st Hv H IH]; intros Hw.
    - exists None. now split.
    - simpl in Hw. pose proof (weight_nonneg st).
      destruct (Hf v u Hv ltac:(lia)) as (o & Eo & Ho). cbn [scan insert keys map].
      rewrite Eo. cbn [bind app fst snd]. destruct o as [v'|].
      + destruct Ho as [Hk Ho]. rewrite Hk. eexists. split; [reflexivity|]. split; [now constructor|].
        left. symmetry. now apply key_eqb_eq.
      + rewrite Ho. destruct (IH ltac:(lia)) as (o & -> & Hi). cbn [bind app fst snd ret].
        destruct o as [vals'|]; eexists; (split; [reflexivity|]); cbn [option_map].
        * destruct Hi as [Hi Hk]. split; [now constructor|now right].
        * now rewrite Hi.
  Qed.

  Lemma scan_push_entry f t w vals st d : finds f t w -> entry d t -> Forall2 entry vals st -> weight st <= w ->
    exists vals', scan_or_push f vals (ret d) = ([], Ok vals') /\ Forall2 entry vals' (insert t st) /\
      (~ In (fst t) (keys st) -> vals' = vals ++ [d]).
  Proof.
    intros Hf Hd H Hw. unfold scan_or_push. destruct (scan_entry f t w vals st Hf H Hw) as (o & -> & Ho).
    cbn [bind app fst snd]. destruct o as [vals'|].
    - destruct Ho as [Ho Hk]. exists vals'. split; [reflexivity|]. split; [exact Ho|]. intros Hn. contradiction.
    - rewrite Ho. exists (vals ++ [d]). split; [reflexivity|]. split; auto.
      apply Forall2_app; auto.
  Qed.

  Variable prefer : bool.
  (** Sums of literals. *)
  Local Lemma simp_add_lit n c d : simp (S (S n)) prefer (EAdd (EReal c) (EReal d)) = ([], Ok (EReal (n_add c d))).
  Proof. reflexivity. Qed.

  Lemma finds_const c z w : lit c z -> ok (w + Z.abs z) ->
    finds (fun v => match v with EReal y => ret (Some (EReal (n_add y c))) | _ => ret None end) (None, z) w.
  Proof.
    intros Hc Hw v u Hu Hb. destruct Hu as [d y Hd|d y p x k Hd Hp]; (eexists; split; [reflexivity|]); simpl in *; auto.
    split; auto. constructor. apply (il_add _ _ _ IL); auto. eapply okle; [exact Hw|]. lia.
  Qed.

  Lemma finds_var n x c z w : lit c z -> ok (w + Z.abs z) ->
    finds (add_collect_var (simp (S (S n)) prefer) x (EReal c)) (Some (x, 1), z) w.
  Proof.
    intros Hc Hw v u Hu Hb. destruct Hu as [d y Hd|d y p x' k Hd Hp].
    - eexists. split; [reflexivity|]. reflexivity.
    - unfold add_collect_var. destruct Hp as [x'|x' c' k Hc' K0 K1]; cbn -[String.eqb simp Z.eqb].
      + rewrite (String.eqb_sym x' x). destruct (String.eqb x x') eqn:E.
        * rewrite simp_add_lit. eexists. split; [reflexivity|]. split; [reflexivity|]. constructor; [|constructor].
          apply (il_add _ _ _ IL); auto. simpl in Hb. eapply okle; [exact Hw|]. lia.
        * eexists. split; reflexivity.
      + eexists. split; [reflexivity|]. cbn -[String.eqb Z.eqb]. apply Z.eqb_neq in K1. now rewrite Z.eqb_sym, K1, andb_false_r.
  Qed.

  Lemma finds_exp n x c0 k c z w b : lit c0 k -> k <> 0 -> k <> 1 -> lit c z -> ok (w + Z.abs z) ->
    finds (add_collect_exp (simp (S (S n)) prefer) (EExp (EVar x) (EReal c0)) (EReal c) b) (Some (x, k), z) w.
  Proof.
    intros Hc0 K0 K1 Hc Hw v u Hu Hb. destruct Hu as [d y Hd|d y p x' k' Hd Hp].
    - eexists. split; [reflexivity|]. reflexivity.
    - unfold add_collect_exp. destruct Hp as [x'|x' c' k' Hc' K0' K1']; cbn -[String.eqb simp Z.eqb m_eq].
      + eexists. split; [reflexivity|]. cbn -[String.eqb Z.eqb]. apply Z.eqb_neq in K1. now rewrite K1, andb_false_r.
      + rewrite (m_eq_power _ _ x' k' x k); try now constructor.
        rewrite (key_eqb_sym (Some (x', k')) (Some (x, k))).
        cbn [fst snd]. destruct (key_eqb (Some (x, k)) (Some (x', k'))) eqn:E; cbn -[String.eqb simp Z.eqb m_eq].
        * rewrite simp_add_lit. eexists. split; [reflexivity|].
          split; [exact E|]. constructor; [|destruct b; [now constructor|]].
          -- apply (il_add _ _ _ IL); auto. simpl in Hb. eapply okle; [exact Hw|]. lia.
          -- apply key_eqb_eq in E. injection E as <- <-. now constructor.
        * eexists. split; [reflexivity|exact E].
  Qed.

  (** What is pushed for an addend with a new power. *)
  Definition entry_of (e : E) : E :=
    match e with
    | EReal _ | EBin OMul (EReal _) _ => e
    | EBin OMul p c => EMul c p
    | _ => EMul (real 1) e
    end.

  Lemma collect_one n e t vals st : term e t -> Forall2 entry vals st -> ok (weight st + Z.abs (snd t)) ->
    exists vals', add_collect (simp (S (S n)) prefer) vals e = ([], Ok vals') /\
      Forall2 entry vals' (insert t st) /\ (~ In (fst t) (keys st) -> vals' = vals ++ [entry_of e]).
  Proof.
    intros Ht H Hw. destruct Ht as [c z Hc|e x k Hp|c z e x k m Hc Hp Hm].
    - apply scan_push_entry with (w := weight st); [now apply finds_const|now constructor|exact H|lia].
    - destruct Hp as [x|x c k Hc K0 K1].
      + apply scan_push_entry with (w := weight st); [apply finds_var; auto using lit1| |exact H|lia].
        constructor; [exact lit1|constructor].
      + apply scan_push_entry with (w := weight st); [apply finds_exp; auto using lit1| |exact H|lia].
        constructor; [exact lit1|now constructor].
    - destruct Hp as [x|x c' k Hc' K0 K1], Hm as [|Hpost];
        (apply scan_push_entry with (w := weight st);
           [first [now apply finds_var|now apply finds_exp]|constructor; [assumption|now constructor]|exact H|lia]).
  Qed.

  Lemma collect_all n : forall l ts vals st, Forall2 term l ts -> Forall2 entry vals st -> ok (weight (st ++ ts)) ->
    exists vals', foldM (add_collect (simp (S (S n)) prefer)) vals l = ([], Ok vals') /\
      Forall2 entry vals' (collect ts st) /\
      (NoDup (keys (st ++ ts)) -> vals' = vals ++ map entry_of l).
  Proof.
    intros l ts vals st H. revert vals st. induction H as [|e t l ts Ht H IH]; intros vals st Hv Hw.
    - exists vals. split; [reflexivity|]. split; [exact Hv|]. intros _. simpl. now rewrite app_nil_r.
    - rewrite weight_app in Hw. cbn [weight fold_right] in Hw. fold (weight ts) in Hw. pose proof (weight_nonneg ts) as W0.
      pose proof (weight_nonneg st) as W1. pose proof (weight_insert t st) as W2. pose proof (weight_nonneg (insert t st)) as W3.
      destruct (collect_one n e t vals st Ht Hv) as (v1 & E1 & H1 & N1); [eapply okle; [exact Hw|lia]|].
      destruct (IH v1 (insert t st) H1) as (v2 & E2 & H2 & N2).
      { eapply okle; [exact Hw|]. rewrite weight_app. lia. }
      exists v2. cbn [foldM]. rewrite E1. cbn [bind]. rewrite E2. split; [reflexivity|]. split; [exact H2|].
      intros Hd. rewrite keys_app in Hd. cbn [keys map] in Hd. fold (keys ts) in Hd. apply NoDup_remove in Hd. destruct Hd as [Hd Hn].
      rewrite in_app_iff in Hn. rewrite N2.
      + rewrite N1 by tauto. rewrite <- app_assoc. reflexivity.
      + rewrite keys_app. clear - Hd Hn.
        assert (K : insert t st = st ++ [t]).
        { assert (Hs : ~ In (fst t) (keys st)) by tauto. clear Hn Hd. induction st as [|u st IH]; simpl in *; [reflexivity|].
          destruct (key_eqb (fst t) (fst u)) eqn:E; [apply key_eqb_eq in E; exfalso; apply Hs; left; congruence|].
          rewrite IH; [reflexivity|tauto]. }
        rewrite K, keys_app, <- app_assoc. simpl. apply NoDup_Add with (a := fst t) (l := keys st ++ keys ts).
        * apply Add_app.
        * split; [exact Hd|]. rewrite in_app_iff. exact Hn.
  Qed.

  (** ** The final step of a sum *)
  Definition settled (r : E) (tr : list monomial) : Prop :=
    plain r tr /\
    (two_left tr -> exists l, build OAdd l = Some r /\ Forall2 neat l tr /\ NoDup (keys tr)).
  Definition res (r : E) (ts : list monomial) : Prop := exists tr, settled r tr /\ refines tr ts.

  Lemma plain_flat e ts : plain e ts -> Forall2 term (flat OAdd e) ts.
  Proof.
    intros H. induction H as [e t Ht|a b ta tb Ha IHa Hb IHb Hap].
    - assert (K : flat OAdd e = [e]) by (destruct Ht as [c z Hc|e x k Hp|c z e x k m Hc Hp Hm]; [|destruct Hp|destruct Hp, Hm]; reflexivity).
      rewrite K. auto.
    - simpl. now apply Forall2_app.
  Qed.
  Lemma plain_length e ts : plain e ts -> (1 <= length ts)%nat.
  Proof. intros H. induction H; simpl; [lia|]. rewrite app_length. lia. Qed.
  Lemma neat_term e t : neat e t -> term e t.
  Proof. intros H. destruct H; econstructor; eauto using ml_pre. Qed.
  Lemma neat_nonzero e t : neat e t -> snd t <> 0.
  Proof. intros H. destruct H; simpl; auto. lia. Qed.

  Lemma entries_neat vals st : Forall2 entry vals st ->
    existsb add_zero_bad (map strip_coef vals) = false /\
    Forall2 neat (filter (fun v => negb (add_zero v)) (map strip_coef vals)) (filter nonzero st).
  Proof.
    intros H. induction H as [|v u vals st Hv H [IH1 IH2]]; [split; [reflexivity|constructor]|].
    cbn [map existsb filter].
    enough (K : add_zero_bad (strip_coef v) = false /\ add_zero (strip_coef v) = negb (nonzero u) /\
                (nonzero u = true -> neat (strip_coef v) u)).
    { destruct K as (K1 & K2 & K3). rewrite K1, IH1, K2, negb_involutive. split; [reflexivity|].
      destruct (nonzero u); auto. }
    unfold nonzero. rewrite negb_involutive. destruct Hv as [c z Hc|c z p x k Hc Hp].
    - cbn -[Z.eqb]. rewrite (tiny_lit _ _ Hc), (eqb_lit _ _ _ _ Hc lit0). split; [|split]; auto.
      + now destruct (z =? 0).
      + intros K. constructor; auto. apply negb_true_iff in K. now apply Z.eqb_neq.
    - unfold strip_coef. cbn -[Z.eqb add_zero_bad add_zero]. rewrite (eqb_lit _ _ _ _ Hc lit1).
      destruct (z =? 1) eqn:E.
      + apply Z.eqb_eq in E. subst z. destruct Hp; (split; [reflexivity|]; split; [reflexivity|]; intros _; repeat constructor; auto).
      + cbn -[Z.eqb]. rewrite (tiny_lit _ _ Hc), (eqb_lit _ _ _ _ Hc lit0). split; [now destruct (z =? 0)|].
        split; auto. intros K. apply negb_true_iff in K. constructor; auto; now apply Z.eqb_neq.
  Qed.

  Lemma unlike_apart ta tb : NoDup (keys (ta ++ tb)) -> Forall (fun t => snd t <> 0) ta -> (1 <= length ta)%nat ->
    apart ta tb.
  Proof.
    intros Hd Hz Hl. destruct (Nat.eq_dec (length ta) 1) as [E|E]; [now left|]. right. right.
    assert (K : exists p z, In (Some p, z) ta).
    { destruct ta as [|[[p|] z] [|[[q|] y] ta]]; simpl in *; try lia.
      - exists p, z. auto.
      - exists p, z. auto.
      - exists q, y. auto.
      - exfalso. inversion Hd as [|? ? Hn _]. apply Hn. now left. }
    destruct K as (p & z & Hi). exists p. rewrite keys_app in Hd. split.
    - rewrite (total_nodup (Some p) z).
      + rewrite Forall_forall in Hz. exact (Hz _ Hi).
      + now apply nodup_app in Hd.
      + exact Hi.
    - apply nodup_app in Hd. apply Hd. change (Some p) with (fst (Some p, z)). now apply in_map.
  Qed.

  Lemma tree_plain d l t tl : tree_over OAdd d l t -> Forall2 neat l tl -> NoDup (keys tl) -> plain t tl.
  Proof.
    intros H. revert tl. induction H as [d e|d l1 l2 a b H1 IH1 H2 IH2]; intros tl Hl Hd.
    - inversion Hl as [|? u ? l' Hu Hn]; subst. inversion Hn; subst. constructor. now apply neat_term.
    - apply Forall2_app_inv_l in Hl. destruct Hl as (t1 & t2 & F1 & F2 & ->). rewrite keys_app in Hd.
      constructor; [apply IH1|apply IH2|apply unlike_apart]; auto.
      + now apply nodup_app in Hd.
      + now apply nodup_app in Hd.
      + now rewrite keys_app.
      + clear - F1. induction F1; constructor; eauto using neat_nonzero.
      + apply tree_over_nonempty in H1. apply Forall2_length in F1. lia.
  Qed.

  Lemma settled_build l t tl : build OAdd l = Some t -> Forall2 neat l tl -> NoDup (keys tl) -> settled t tl.
  Proof.
    intros Hb F Hd. split; [|eauto].
    destruct (le_lt_dec 2 (length l)) as [L|L]; [|rewrite build_short in Hb by lia; discriminate].
    eapply tree_plain; eauto. eapply build_balanced; eauto.
  Qed.

  Lemma add_rest_ok n a b ta tb : plain a ta -> plain b tb -> apart ta tb -> ok (weight (ta ++ tb)) ->
    exists r, add_rest (simp (S (S n)) prefer) a b = ([], Ok r) /\ res r (ta ++ tb).
  Proof.
    intros Ha Hb Hap Hw. unfold add_rest, flatten.
    destruct (collect_all n (flat OAdd a ++ flat OAdd b) (ta ++ tb) [] []) as (vals & -> & Hv & _);
      [apply Forall2_app; now apply plain_flat|constructor|exact Hw|].
    destruct (collect_spec (ta ++ tb) [] (NoDup_nil _)) as [Hd Hr].
    destruct (entries_neat _ _ Hv) as [Hz Hn]. cbn [bind app fst snd] in *. rewrite Hz. cbn [emit tell bind app fst snd].
    pose proof (refines_trans _ _ _ (filter_nonzero_refines _) Hr) as Hr'.
    pose proof (nodup_filter nonzero _ Hd) as Hd'.
    destruct (build OAdd _) as [e|] eqn:Hb'.
    - exists e. split; [reflexivity|]. eexists. split; [eapply settled_build; eauto|exact Hr'].
    - exists (EAdd a b). split; [reflexivity|]. exists (ta ++ tb). split; [|apply refines_refl].
      split; [now constructor|]. intros H2. exfalso. apply (refines_two_left _ _ Hr') in H2.
      apply two_left_length in H2; auto.
      + apply Forall2_length in Hn. rewrite <- Hn in H2.
        destruct (build_spec OAdd _ H2) as (x & y & K & _). congruence.
      + apply Forall_forall. intros u Hu. apply filter_In in Hu. destruct Hu as [_ Hu]. unfold nonzero in Hu.
        apply negb_true_iff, Z.eqb_neq in Hu. exact Hu.
  Qed.

  (** ** Comparison of sums *)
  Lemma equals_multiple (p q m l : E) x k y j c z d w : power p x k -> power q y j -> multiple post c z p m -> multiple post d w q l ->
    equals m l = Some (n_eqb c d && key_eqb (Some (x, k)) (Some (y, j))) /\
    (n_eqb c d && key_eqb (Some (x, k)) (Some (y, j)) = true -> eq_strict m l = true).
  Proof.
    intros Hp Hq Hm Hl. unfold eq_strict, equals.
    destruct Hp as [x|x c' k Hc K0 K1], Hq as [y|y d' j Hd J0 J1], Hm as [|Hm], Hl as [|Hl];
      cbn -[String.eqb Z.eqb];
      rewrite ?(eqb_lit _ _ _ _ Hc Hd), ?(Z.eqb_sym 1), ?andb_true_r;
      try (apply Z.eqb_neq in K1; rewrite K1); try (apply Z.eqb_neq in J1; rewrite J1); rewrite ?andb_false_r;
      destruct (n_eqb c d) eqn:E1, (String.eqb x y) eqn:E2; try destruct (k =? j) eqn:E3; cbn;
      (split; [reflexivity|]); try discriminate; intros _;
      repeat (rewrite ?E1, ?E2, ?(eqb_lit _ _ _ _ Hc Hd), ?E3; cbn); reflexivity.
  Qed.
  Lemma equals_terms (a b : E) ta tb : term a ta -> term b tb ->
    exists q, equals a b = Some q /\ (q = true -> ta = tb /\ eq_strict a b = true).
  Proof.
    intros Ha Hb. destruct Ha as [c z Hc|a x k Hp|c z p x k m Hc Hp Hm], Hb as [d y Hd|b x' k' Hq|d y q x' k' l Hd Hq Hl].
    - eexists. split; [reflexivity|]. cbn. intros K. rewrite K. split; auto.
      rewrite (eqb_lit _ _ _ _ Hc Hd) in K. apply Z.eqb_eq in K. congruence.
    - exists false. split; [|discriminate]. destruct Hq; reflexivity.
    - exists false. split; [|discriminate]. destruct Hl; reflexivity.
    - exists false. split; [|discriminate]. destruct Hp; reflexivity.
    - destruct (equals_power a b _ _ _ _ Hp Hq) as [H1 H2]. eexists. split; [exact H1|]. intros K. split; auto.
      apply key_eqb_eq in K. congruence.
    - exists false. split; [|discriminate]. destruct Hp, Hl; reflexivity.
    - exists false. split; [|discriminate]. destruct Hm; reflexivity.
    - exists false. split; [|discriminate]. destruct Hq, Hm; reflexivity.
    - destruct (equals_multiple p q m l _ _ _ _ c z d y Hp Hq Hm Hl) as [H1 H2]. eexists. split; [exact H1|]. intros K. split; [|auto].
      apply andb_prop in K. destruct K as [Ec Ek]. apply key_eqb_eq in Ek. rewrite (eqb_lit _ _ _ _ Hc Hd) in Ec.
      apply Z.eqb_eq in Ec. congruence.
  Qed.
  Lemma m_eq_terms (a b : E) ta tb : term a ta -> term b tb ->
    exists q, m_eq a b = ([], Ok q) /\ (q = true -> ta = tb).
  Proof.
    intros Ha Hb. destruct (equals_terms a b ta tb Ha Hb) as (q & H1 & H2). exists q. unfold m_eq. rewrite H1.
    destruct q; [|split; [reflexivity|discriminate]]. destruct (H2 eq_refl) as [K ->]. split; auto.
  Qed.

  Lemma find_eq_terms (x : E) t m tm : term x t -> Forall2 term m tm ->
    exists q, find_eq (equals x) m = Some q /\ (q = true -> In t tm).
  Proof.
    intros Hx H. induction H as [|y u m tm Hy H IH].
    - exists false. split; [reflexivity|discriminate].
    - destruct (equals_terms x y t u Hx Hy) as (q & E1 & K). cbn [find_eq]. rewrite E1. destruct q.
      + exists true. split; auto. intros _. left. destruct (K eq_refl) as [-> _]. reflexivity.
      + destruct IH as (q & E2 & K2). exists q. split; auto. intros Hq. right. auto.
  Qed.
  Lemma all_found_terms (l : list E) tl m tm : Forall2 term l tl -> Forall2 term m tm ->
    exists q, all_found l m = Some q /\ (q = true -> incl tl tm).
  Proof.
    intros Hl Hm. induction Hl as [|x t l tl Hx Hl IH].
    - exists true. split; [reflexivity|]. intros _ k [].
    - destruct (find_eq_terms x t m tm Hx Hm) as (q & E1 & K1). cbn [all_found]. rewrite E1. destruct q.
      + destruct IH as (q & E2 & K2). exists q. split; [exact E2|]. intros Hq k [<-|Hk]; auto. now apply K2.
      + exists false. split; [reflexivity|discriminate].
  Qed.

  Lemma term_not_sum a b t : ~ term (EAdd a b) t.
  Proof. intros H. inversion H as [|e x k Hp|c z e x k m Hc Hp Hm]; subst; [inversion Hp|inversion Hm]. Qed.

  Lemma equals_incl (a b : E) ta tb : plain a ta -> plain b tb ->
    exists q, equals a b = Some q /\ (q = true -> incl ta tb).
  Proof.
    intros Ha. revert b tb. induction Ha as [a t Ht|a1 a2 t1 t2 H1 IH1 H2 IH2 Hap]; intros b tb Hb.
    - destruct Hb as [b u Hu|b1 b2 u1 u2 G1 G2 Gap].
      + destruct (equals_terms a b t u Ht Hu) as (q & K1 & K2). exists q. split; auto.
        intros Hq k [<-|[]]. left. destruct (K2 Hq) as [-> _]. reflexivity.
      + exists false. split; [|discriminate]. destruct Ht as [c z Hc|e x k Hp|c z e x k m Hc Hp Hm]; [|destruct Hp|destruct Hp, Hm]; reflexivity.
    - destruct Hb as [b u Hu|b1 b2 u1 u2 G1 G2 Gap].
      + exists false. split; [|discriminate]. destruct Hu as [c z Hc|e x k Hp|c z e x k m Hc Hp Hm]; [|destruct Hp|destruct Hp, Hm]; reflexivity.
      + rewrite equals_bin. cbn [binop_eqb assoc].
        destruct (IH1 b1 u1 G1) as (q1 & -> & K1). destruct (IH2 b2 u2 G2) as (q2 & -> & K2).
        destruct (q1 && q2) eqn:Eq.
        * apply andb_prop in Eq. destruct Eq as [-> ->]. exists true. split; [reflexivity|]. intros _.
          intros k Hk. apply in_app_or in Hk. apply in_or_app.
          destruct Hk as [Hk|Hk]; [left; now apply K1|right; now apply K2].
        * apply all_found_terms; unfold flatten; apply Forall2_app; now apply plain_flat.
  Qed.

  Lemma equals_plain (a b : E) ta tb : plain a ta -> plain b tb ->
    exists q, equals a b = Some q /\ (q = true -> incl (keys ta) (keys tb)).
  Proof.
    intros Ha Hb. destruct (equals_incl a b ta tb Ha Hb) as (q & K & I). exists q. split; [exact K|].
    intros Hq. unfold keys. intros k Hk. apply in_map_iff in Hk. destruct Hk as (t & <- & Ht). now apply in_map, I.
  Qed.

  Definition is_sum (e : E) : Prop := exists a b, e = EAdd a b.

  (** Operands that can be told apart are not Equal, unless both are terms. *)
  Lemma m_eq_apart (a b : E) ta tb : plain a ta -> plain b tb -> apart ta tb -> is_sum a \/ is_sum b ->
    m_eq a b = ([], Ok false).
  Proof.
    intros Ha Hb Hap Hs. apply m_eq_false.
    assert (L : forall e ts, plain e ts -> is_sum e -> (2 <= length ts)%nat).
    { intros e ts H (x & y & ->). inversion H as [e t Ht|? ? t1 t2 H1 H2]; subst; [destruct (term_not_sum _ _ _ Ht)|].
      rewrite app_length. apply plain_length in H1, H2. lia. }
    destruct (equals_plain a b ta tb Ha Hb) as (q & Eq & K). destruct q; [|exact Eq]. exfalso.
    destruct Hap as [Hap|[Hap|(p & H1 & H2)]].
    - destruct Hs as [Hs|Hs]; [specialize (L a ta Ha Hs); lia|].
      destruct Hs as (x & y & ->). destruct Ha as [a t Ht|a1 a2 t1 t2 G1 G2 _].
      + destruct Ht as [c z Hc|e x' k Hp|c z e x' k m Hc Hp Hm]; [|destruct Hp|destruct Hp, Hm]; discriminate.
      + rewrite app_length in Hap. apply plain_length in G1, G2. lia.
    - destruct Hs as [Hs|Hs]; [|specialize (L b tb Hb Hs); lia].
      destruct Hs as (x & y & ->). destruct Hb as [a t Ht|a1 a2 t1 t2 G1 G2 _].
      + destruct Ht as [c z Hc|e x' k Hp|c z e x' k m Hc Hp Hm]; [|destruct Hp|destruct Hp, Hm]; discriminate.
      + rewrite app_length in Hap. apply plain_length in G1, G2. lia.
    - apply H2, K; auto. now apply total_in.
  Qed.
  Lemma m_eq_sum_r (a x y : E) t : term a t -> m_eq a (EAdd x y) = ([], Ok false).
  Proof. intros Ht. apply m_eq_false. destruct Ht as [c z Hc|e x' k Hp|c z e x' k m Hc Hp Hm]; [|destruct Hp|destruct Hp, Hm]; reflexivity. Qed.
  Lemma m_eq_sum_l (a x y : E) t : term a t -> m_eq (EAdd x y) a = ([], Ok false).
  Proof. intros Ht. apply m_eq_false. destruct Ht as [c z Hc|e x' k Hp|c z e x' k m Hc Hp Hm]; [|destruct Hp|destruct Hp, Hm]; reflexivity. Qed.

  (** ** Single terms *)
  Lemma simp_power n p x k : power p x k -> simp (S (S n)) prefer p = ([], Ok p).
  Proof.
    intros Hp. destruct Hp as [x|x c k Hc K0 K1]; [reflexivity|]. cbn -[n0 n1].
    rewrite (eqb_lit _ _ _ _ Hc lit0), (eqb_lit _ _ _ _ Hc lit1).
    apply Z.eqb_neq in K0, K1. rewrite K0, K1. reflexivity.
  Qed.

  Lemma bind_ok {A B} (a : A) (k : A -> M B) : bind ([], Ok a) k = k a.
  Proof. cbn. now destruct (k a). Qed.
  Lemma operands_run (S : E -> M E) a b k a' b' : S a = ([], Ok a') -> S b = ([], Ok b') -> operands S a b k = k a' b'.
  Proof. intros H1 H2. unfold operands. rewrite H1, H2. cbn. now destruct (k a' b'). Qed.

  (* what simplifying m, that is c * P or P * c, gives *)
  Definition scaled (m : E) (z : Z) (p : E) : E := if z =? 0 then real 0 else if z =? 1 then p else m.

  Lemma simp_scaled n c z p x k m : lit c z -> power p x k -> multiple post c z p m ->
    simp (S (S (S n))) prefer m = ([], Ok (scaled m z p)).
  Proof.
    intros Hc Hp Hm.
    assert (Hv : exists a b, m = EMul a b /\ simp (S (S n)) prefer a = ([], Ok a) /\ simp (S (S n)) prefer b = ([], Ok b) /\
              rcast (PBin OMul PReal PAny) m = Some (EMul (EReal c) p)).
    { pose proof (simp_power n p x k Hp). destruct Hm; do 2 eexists; (split; [reflexivity|]);
        (split; [first [assumption|reflexivity]|]); (split; [first [assumption|reflexivity]|]); destruct Hp; reflexivity. }
    destruct Hv as (a & b & Em & Sa & Sb & Hr). rewrite Em. change (simp (S (S (S n))) prefer (EMul a b)) with
      (visit_mul (simp (S (S n)) prefer) prefer a b). unfold visit_mul, scaled. rewrite (operands_run _ _ _ _ a b Sa Sb).
    assert (K : mul_478 (simp (S (S n)) prefer) a b =
                ([], Ok (if z =? 0 then Some (real 0) else if z =? 1 then Some p else None))).
    { unfold mul_478. rewrite <- Em, Hr.
      cbn [as_real as_bin]. rewrite (tiny_lit _ _ Hc), (eqb_lit _ _ _ _ Hc lit0), (eqb_lit _ _ _ _ Hc lit1).
      destruct (z =? 0); [reflexivity|]. destruct (z =? 1); [|reflexivity].
      unfold yesM. rewrite (simp_power n p x k Hp). reflexivity. }
    cbn [mul_rules first_rule]. rewrite K, bind_ok. destruct (z =? 0) eqn:E0; [reflexivity|].
    destruct (z =? 1) eqn:E1; [reflexivity|]. clear K Sa Sb Hr.
    destruct Hm; injection Em as <- <-; destruct Hp as [x|x d k Hd K0 K1];
      (cbn -[mul_rest simp]; unfold mul_rest; cbn -[simp]; unfold strip_exp; cbn; change (n_of_Z 1) with n1;
       rewrite ?(eqb_lit _ _ _ _ lit1 lit1), ?(eqb_lit _ _ _ _ Hd lit1); try (apply Z.eqb_neq in K1; rewrite K1); reflexivity).
  Qed.

  (** ** The rules of a sum *)
  Lemma one_left t : ~ two_left [t].
  Proof.
    intros (k & j & Hn & Hk & Hj). cbn in Hk, Hj.
    destruct (key_eqb k (fst t)) eqn:E1; [|lia]. destruct (key_eqb j (fst t)) eqn:E2; [|lia].
    apply key_eqb_eq in E1, E2. congruence.
  Qed.
  Lemma settled_term e t : term e t -> settled e [t].
  Proof. intros H. split; [now constructor|]. intros K. destruct (one_left t K). Qed.
  Lemma refines_zero_l ts : refines ts ((None, 0) :: ts).
  Proof.
    repeat split; cbn [total weight keys map fold_right fst snd length]; try lia.
    - intros k. destruct (key_eqb k None); reflexivity.
    - intros p H. now right.
    - change (weight ts <= Z.abs 0 + weight ts). lia.
  Qed.
  Lemma refines_zero_r ts : refines ts (ts ++ [(None, 0)]).
  Proof.
    repeat split.
    - intros k. rewrite total_app. cbn. destruct (key_eqb k None); lia.
    - intros p H. rewrite keys_app. apply in_or_app. now left.
    - rewrite weight_app. cbn. lia.
    - rewrite app_length. lia.
  Qed.
  Lemma refines_merge k y z : refines [(k, y + z)] [(k, y); (k, z)].
  Proof.
    repeat split.
    - intros j. cbn. destruct (key_eqb j k); lia.
    - cbn. intros p [H|[]]. now left.
    - cbn. lia.
    - cbn. lia.
  Qed.
  Lemma res_term e t ts : term e t -> refines [t] ts -> res e ts.
  Proof. intros H K. exists [t]. split; [now apply settled_term|exact K]. Qed.

  Definition is_const (e : E) : bool := match e with EReal _ => true | _ => false end.
  Notation addS n := (simp (S (S (S n))) prefer).
  Notation add_run n a b := (first_rule (add_rules (addS n)) (add_rest (addS n)) a b).

  Lemma m_eq_cp (c : num) p x k : power p x k -> m_eq p (EReal c) = ([], Ok false).
  Proof. intros H. destruct H; reflexivity. Qed.
  Lemma m_eq_pc (c : num) p x k : power p x k -> m_eq (EReal c) p = ([], Ok false).
  Proof. intros H. destruct H; reflexivity. Qed.
  Lemma m_eq_pm (c : num) z p q m x k : power p x k -> multiple post c z q m -> m_eq p m = ([], Ok false).
  Proof. intros H Hm. destruct H, Hm; reflexivity. Qed.
  Lemma m_eq_mp (c : num) z p q m x k : power p x k -> multiple post c z q m -> m_eq m p = ([], Ok false).
  Proof. intros H Hm. destruct H, Hm; reflexivity. Qed.

  Lemma first_no (r : E -> E -> rule) rs d a b : r a b = ([], Ok None) -> first_rule (r :: rs) d a b = first_rule rs d a b.
  Proof. intros H. cbn [first_rule]. now rewrite H, bind_ok. Qed.
  Lemma first_yes (r : E -> E -> rule) rs d a b e : r a b = ([], Ok (Some e)) -> first_rule (r :: rs) d a b = ([], Ok e).
  Proof. intros H. cbn [first_rule]. now rewrite H, bind_ok. Qed.

  Ltac go := cbn -[m_eq simp add_rest String.eqb Z.eqb n0 n1 n2].
  Ltac meq :=
    repeat match goal with
    | H : m_eq ?a ?b = _ |- context [m_eq ?a ?b] => rewrite H
    | H : n_eqb ?a ?b = _ |- context [n_eqb ?a ?b] => rewrite H
    end.
  (* the next rule does not apply *)
  Ltac nxt := rewrite first_no; [|solve [reflexivity | unfold add_101, add_107, add_141, add_146; go; meq; reflexivity]].
  Ltac hit := erewrite first_yes; [|solve [reflexivity | unfold add_101, add_107, add_141, add_146; go; meq; go; reflexivity]].

  Lemma add_const_l n c z b tb : lit c z -> settled b tb -> is_const b = false -> ok (weight ((None, z) :: tb)) ->
    exists r, add_run n (EReal c) b = ([], Ok r) /\ res r ((None, z) :: tb).
  Proof.
    intros Hc Hb Nc Hw.
    assert (R : add_run n (EReal c) b = if z =? 0 then ([], Ok b) else add_rest (addS n) (EReal c) b).
    { rewrite <- (eqb_lit _ _ _ _ Hc lit0). destruct Hb as [Hb _]. unfold add_rules.
      destruct Hb as [b t Ht|x y t1 t2 H1 H2 Hap]; [destruct Ht as [d y Hd|p x k Hp|d y p x k m Hd Hp Hm]; [discriminate| |]|].
      - assert (M : m_eq (EReal c) p = ([], Ok false)) by eauto using m_eq_pc.
        destruct Hp; nxt; destruct (n_eqb c n0) eqn:Ec; [hit; reflexivity| |hit; reflexivity|]; do 6 nxt; reflexivity.
      - assert (M : m_eq p (EReal c) = ([], Ok false)) by eauto using m_eq_cp.
        destruct Hp, Hm; (nxt; destruct (n_eqb c n0) eqn:Ec; [hit; reflexivity|]; do 6 nxt; reflexivity).
      - nxt. destruct (n_eqb c n0) eqn:Ec; [hit; reflexivity|]. do 6 nxt. reflexivity. }
    rewrite R. destruct (z =? 0) eqn:Ez.
    - apply Z.eqb_eq in Ez. subst z. exists b. split; [reflexivity|]. exists tb. split; [exact Hb|apply refines_zero_l].
    - change ((None, z) :: tb) with ([(None, z)] ++ tb). apply add_rest_ok; auto.
      + now repeat constructor.
      + apply Hb.
      + now left.
  Qed.
  Lemma add_const_r n c z a ta : lit c z -> settled a ta -> is_const a = false -> ok (weight (ta ++ [(None, z)])) ->
    exists r, add_run n a (EReal c) = ([], Ok r) /\ res r (ta ++ [(None, z)]).
  Proof.
    intros Hc Ha Nc Hw.
    assert (R : add_run n a (EReal c) = if z =? 0 then ([], Ok a) else add_rest (addS n) a (EReal c)).
    { rewrite <- (eqb_lit _ _ _ _ Hc lit0). destruct Ha as [Ha _]. unfold add_rules.
      destruct Ha as [a t Ht|x y t1 t2 H1 H2 Hap]; [destruct Ht as [d y Hd|p x k Hp|d y p x k m Hd Hp Hm]; [discriminate| |]|].
      - assert (M : m_eq p (EReal c) = ([], Ok false)) by eauto using m_eq_cp.
        destruct Hp; nxt; destruct (n_eqb c n0) eqn:Ec; [hit; reflexivity| |hit; reflexivity|]; do 6 nxt; reflexivity.
      - assert (M : m_eq p (EReal c) = ([], Ok false)) by eauto using m_eq_cp.
        destruct Hp, Hm; (nxt; destruct (n_eqb c n0) eqn:Ec; [hit; reflexivity|]; do 6 nxt; reflexivity).
      - nxt. destruct (n_eqb c n0) eqn:Ec; [hit; reflexivity|]. do 6 nxt. reflexivity. }
    rewrite R. destruct (z =? 0) eqn:Ez.
    - apply Z.eqb_eq in Ez. subst z. exists a. split; [reflexivity|]. exists ta. split; [exact Ha|apply refines_zero_r].
    - apply add_rest_ok; auto.
      + apply Ha.
      + now repeat constructor.
      + right. now left.
  Qed.

  Lemma add_power_power n p q x k y j : power p x k -> power q y j -> ok 2 ->
    exists r, add_run n p q = ([], Ok r) /\ res r [(Some (x, k), 1); (Some (y, j), 1)].
  Proof.
    intros Hp Hq Hw. pose proof (m_eq_power p q _ _ _ _ Hp Hq) as M. unfold add_rules.
    destruct (key_eqb (Some (x, k)) (Some (y, j))) eqn:Ek.
    - assert (R : simp (S (S (S n))) prefer (EMul (real 2) p) = ([], Ok (EMul (real 2) p)))
        by (apply (simp_scaled n n2 2 p x k _ lit2 Hp (ml_pre _ _ _ _))).
      exists (EMul (real 2) p). split.
      + destruct Hp, Hq; do 5 nxt; apply first_yes; unfold add_141; rewrite M, bind_ok; unfold yesM; now rewrite R.
      + apply key_eqb_eq in Ek. rewrite <- Ek. apply res_term with (t := (Some (x, k), 2)); [|apply (refines_merge (Some (x, k)) 1 1)].
        econstructor; [apply lit2|exact Hp|constructor].
    - assert (R : add_run n p q = add_rest (addS n) p q) by (destruct Hp, Hq; unfold add_rules; do 7 nxt; reflexivity).
      unfold add_rules in R. rewrite R. apply (add_rest_ok (S n) p q [_] [_]); [now repeat constructor|now repeat constructor|now left|exact Hw].
  Qed.
  Lemma add_scaled_power n c z p q x k y j m : lit c z -> power p x k -> power q y j -> multiple post c z p m -> ok (Z.abs z + 1) ->
    exists r, add_run n m q = ([], Ok r) /\ res r [(Some (x, k), z); (Some (y, j), 1)].
  Proof.
    intros Hc Hp Hq Hm Hw. pose proof (m_eq_power p q _ _ _ _ Hp Hq) as M. unfold add_rules.
    pose proof (m_eq_mp c z q p m y j Hq Hm) as M2.
    destruct (key_eqb (Some (x, k)) (Some (y, j))) eqn:Ek.
    - exists (EMul (EReal (n_add c n1)) p). split.
      + clear M2; destruct Hp, Hq, Hm; do 6 nxt; hit; reflexivity.
      + apply key_eqb_eq in Ek. rewrite <- Ek. apply res_term with (t := (Some (x, k), z + 1)); [|apply (refines_merge (Some (x, k)) z 1)].
        econstructor; [|exact Hp|constructor]. apply (il_add _ _ _ IL); auto using lit1. eapply okle; [exact Hw|lia].
    - assert (R : add_run n m q = add_rest (addS n) m q)
        by (destruct Hp, Hq, Hm; unfold add_rules; do 7 nxt; reflexivity).
      unfold add_rules in R. rewrite R. apply (add_rest_ok (S n) _ q [_] [_]); [econstructor; econstructor; eauto|now repeat constructor|now left|].
      cbn -[Z.abs Z.add]. eapply okle; [exact Hw|]. lia.
  Qed.
  Lemma add_power_scaled n c z p q x k y j m : lit c z -> power p x k -> power q y j -> multiple post c z q m -> ok (Z.abs z + 1) ->
    exists r, add_run n p m = ([], Ok r) /\ res r [(Some (x, k), 1); (Some (y, j), z)].
  Proof.
    intros Hc Hp Hq Hm Hw. pose proof (m_eq_power q p _ _ _ _ Hq Hp) as M. unfold add_rules.
    pose proof (m_eq_pm c z p q m x k Hp Hm) as M2.
    destruct (key_eqb (Some (y, j)) (Some (x, k))) eqn:Ek.
    - exists (EMul (EReal (n_add c n1)) q). split.
      + clear M2; destruct Hp, Hq, Hm; do 6 nxt; hit; reflexivity.
      + apply key_eqb_eq in Ek. rewrite <- Ek. apply res_term with (t := (Some (y, j), 1 + z)); [|apply (refines_merge (Some (y, j)) 1 z)].
        econstructor; [|exact Hq|constructor]. rewrite Z.add_comm. apply (il_add _ _ _ IL); auto using lit1. eapply okle; [exact Hw|lia].
    - assert (R : add_run n p m = add_rest (addS n) p m)
        by (destruct Hp, Hq, Hm; unfold add_rules; do 7 nxt; reflexivity).
      unfold add_rules in R. rewrite R. apply (add_rest_ok (S n) p _ [_] [_]); [now repeat constructor|econstructor; econstructor; eauto|now left|].
      cbn -[Z.abs Z.add]. eapply okle; [exact Hw|]. lia.
  Qed.
  Lemma add_scaled_scaled n c z d w p q x k y j m l : lit c z -> lit d w -> power p x k -> power q y j ->
    multiple post c z p m -> multiple post d w q l -> ok (Z.abs z + Z.abs w) ->
    exists r, add_run n m l = ([], Ok r) /\ res r [(Some (x, k), z); (Some (y, j), w)].
  Proof.
    intros Hc Hd Hp Hq Hm Hl Hw. pose proof (m_eq_power p q _ _ _ _ Hp Hq) as M. unfold add_rules.
    pose proof (m_eq_pm d w p q l x k Hp Hl) as M2.
    destruct (m_eq_terms m l _ _ (tm_scaled _ _ _ _ _ _ _ _ Hc Hp Hm) (tm_scaled _ _ _ _ _ _ _ _ Hd Hq Hl)) as (b & M3 & K).
    destruct (key_eqb (Some (x, k)) (Some (y, j))) eqn:Ek.
    - exists (EMul (EReal (n_add c d)) p). split.
      + clear K M2 M3. destruct Hp, Hq, Hm, Hl; do 2 nxt; hit; reflexivity.
      + apply key_eqb_eq in Ek. rewrite <- Ek. apply res_term with (t := (Some (x, k), z + w)); [|apply refines_merge].
        econstructor; [|exact Hp|constructor]. apply (il_add _ _ _ IL); auto. eapply okle; [exact Hw|lia].
    - destruct b; [cbn in K; specialize (K eq_refl); apply key_eqb_neq in Ek; congruence|]. clear K.
      assert (R : add_run n m l = add_rest (addS n) m l)
        by (destruct Hp, Hq, Hm, Hl; unfold add_rules; do 7 nxt; reflexivity).
      unfold add_rules in R. rewrite R. apply (add_rest_ok (S n) _ _ [_] [_]); [econstructor; econstructor; eauto|econstructor; econstructor; eauto|now left|].
      cbn -[Z.abs Z.add]. eapply okle; [exact Hw|]. lia.
  Qed.

  Lemma add_core n a b ta tb : settled a ta -> settled b tb -> apart ta tb -> ok (weight (ta ++ tb)) ->
    exists r, add_run n a b = ([], Ok r) /\ res r (ta ++ tb).
  Proof.
    intros Ha Hb Hap Hw. assert (Pa := proj1 Ha). assert (Pb := proj1 Hb).
    assert (Sum : is_sum a \/ is_sum b -> is_const a = false -> is_const b = false ->
                  add_run n a b = add_rest (addS n) a b).
    { intros Hs Ca Cb. pose proof (m_eq_apart a b ta tb Pa Pb Hap Hs) as M. unfold add_rules.
      destruct Pa as [a t Ht|a1 a2 t1 t2 H1 H2 Hap']; [destruct Ht as [d y Hd|p x k Hp|d y p x k m Hd Hp Hm]; [discriminate| |]|].
      - destruct Hs as [Hs|(u & v & ->)]; [destruct Hs as (u & v & ->); inversion Hp|].
        destruct Hp; do 7 nxt; reflexivity.
      - destruct Hs as [Hs|(u & v & ->)]; [destruct Hs as (u & v & ->); inversion Hm|].
        pose proof (m_eq_sum_r p u v _ (tm_power _ _ _ _ _ Hp)) as M2. destruct Hp, Hm; do 7 nxt; reflexivity.
      - destruct Pb as [b t Ht|b1 b2 u1 u2 G1 G2 Gap]; [destruct Ht as [d y Hd|p x k Hp|d y p x k m Hd Hp Hm]; [discriminate| |]|].
        + destruct Hp; do 7 nxt; reflexivity.
        + pose proof (m_eq_sum_r p a1 a2 _ (tm_power _ _ _ _ _ Hp)) as M2. destruct Hp, Hm; do 7 nxt; reflexivity.
        + do 7 nxt. reflexivity. }
    destruct (is_const a) eqn:Ca.
    - destruct a as [c| | | | | | | |]; try discriminate. inversion Pa as [e t Ht|]; subst.
      inversion Ht as [c' z Hc|e x k Hp|c' z e x k m Hc Hp Hm]; subst; [|inversion Hp|inversion Hm].
      destruct (is_const b) eqn:Cb.
      + destruct b as [d| | | | | | | |]; try discriminate. inversion Pb as [e t Hu|]; subst.
        inversion Hu as [d' w Hd|e x k Hp|d' w e x k m Hd Hp Hm]; subst; [|inversion Hp|inversion Hm].
        exists (EReal (n_add c d)). split; [reflexivity|].
        apply res_term with (t := (None, z + w)); [|apply refines_merge]. constructor.
        apply (il_add _ _ _ IL); auto. eapply okle; [exact Hw|]. cbn -[Z.abs Z.add]. lia.
      + now apply add_const_l.
    - destruct (is_const b) eqn:Cb.
      + destruct b as [d| | | | | | | |]; try discriminate. inversion Pb as [e t Hu|]; subst.
        inversion Hu as [d' w Hd|e x k Hp|d' w e x k m Hd Hp Hm]; subst; [|inversion Hp|inversion Hm].
        now apply add_const_r.
      + destruct Pa as [a t Ht|a1 a2 t1 t2 H1 H2 Hap'].
        2: { rewrite Sum; [|left; now exists a1, a2|auto|auto]. apply add_rest_ok; auto. apply Ha. }
        destruct Pb as [b u Hu|b1 b2 u1 u2 G1 G2 Gap].
        2: { rewrite Sum; [|right; now exists b1, b2|auto|auto]. apply add_rest_ok; auto. apply Ha. apply Hb. }
        cbn -[Z.abs Z.add] in Hw. destruct Ht as [c z Hc|p x k Hp|c z p x k m Hc Hp Hm]; [discriminate| |];
          (destruct Hu as [d w Hd|q y j Hq|d w q y j l Hd Hq Hl]; [discriminate| |]); cbn -[Z.abs Z.add] in Hw.
        * now apply add_power_power.
        * eapply add_power_scaled; eauto. eapply okle; [exact Hw|lia].
        * eapply add_scaled_power; eauto.
        * eapply add_scaled_scaled; eauto. eapply okle; [exact Hw|lia].
  Qed.

  (** ** Sums of terms *)
  Lemma yields_add a b a' b' ta tb : yields prefer a a' -> res a' ta -> yields prefer b b' -> res b' tb ->
    apart ta tb -> ok (weight (ta ++ tb)) -> exists r, yields prefer (EAdd a b) r /\ res r (ta ++ tb).
  Proof.
    intros (n & Hn) (ra & Sa & Ra) (m & Hm) (rb & Sb & Rb) Hap Hw.
    destruct (add_core (max n m) a' b' ra rb Sa Sb) as (r & Hr & (tr & St & Rt)).
    - eapply apart_refines; eauto; eapply plain_length; [apply Sa|apply Sb].
    - eapply okle; [exact Hw|]. pose proof (weight_nonneg (ra ++ rb)). pose proof (refines_app _ _ _ _ Ra Rb) as (_ & _ & K & _). lia.
    - exists r. split.
      + exists (S (S (S (S (max n m))))). change (simp (S (S (S (S (max n m))))) prefer (EAdd a b)) with
          (visit_add (addS (max n m)) a b). unfold visit_add.
        rewrite (operands_run _ _ _ _ a' b'); [exact Hr| |]; eapply yields_ge; eauto; lia.
      + exists tr. split; auto. eapply refines_trans; [exact Rt|]. now apply refines_app.
  Qed.

  Lemma scaled_res c z p x k m : lit c z -> power p x k -> multiple post c z p m -> res (scaled m z p) [(Some (x, k), z)].
  Proof.
    intros Hc Hp Hm. unfold scaled. destruct (z =? 0) eqn:E0; [|destruct (z =? 1) eqn:E1].
    - apply Z.eqb_eq in E0. subst z. apply res_term with (t := (None, 0)); [constructor; apply lit0|].
      repeat split; cbn; try lia; [|intros q [H|[]]; discriminate].
      intros j. destruct (key_eqb j None), (key_eqb j (Some (x, k))); reflexivity.
    - apply Z.eqb_eq in E1. subst z. apply res_term with (t := (Some (x, k), 1)); [now constructor|apply refines_refl].
    - apply res_term with (t := (Some (x, k), z)); [econstructor; eauto|apply refines_refl].
  Qed.

  Lemma term_yields e t : term e t -> exists r, yields prefer e r /\ res r [t].
  Proof.
    intros Ht. destruct Ht as [c z Hc|p x k Hp|c z p x k m Hc Hp Hm].
    - exists (EReal c). split; [exists 1%nat; reflexivity|]. apply res_term with (t := (None, z)); [now constructor|apply refines_refl].
    - exists p. split; [exists 2%nat; eapply simp_power; eauto|]. apply res_term with (t := (Some (x, k), 1)); [now constructor|apply refines_refl].
    - exists (scaled m z p). split; [exists 3%nat; eapply simp_scaled; eauto|]. eapply scaled_res; eauto.
  Qed.
  Lemma plain_yields e ts : plain e ts -> ok (weight ts) -> exists r, yields prefer e r /\ res r ts.
  Proof.
    intros H. induction H as [e t Ht|a b ta tb Ha IHa Hb IHb Hap]; intros Hw.
    - now apply term_yields.
    - pose proof (weight_nonneg ta). pose proof (weight_nonneg tb). rewrite weight_app in Hw.
      destruct IHa as (a' & Ya & Ra); [eapply okle; [exact Hw|lia]|].
      destruct IHb as (b' & Yb & Rb); [eapply okle; [exact Hw|lia]|].
      eapply yields_add; eauto. now rewrite weight_app.
  Qed.

  (** ** Integer multiples *)
  Notation mul_run m c a := (first_rule (mul_rules (simp m prefer) prefer) (mul_rest (simp m prefer)) (EReal c) a).

  Lemma mul_478_run n c z a : lit c z ->
    mul_478 (simp n prefer) (EReal c) a =
    if z =? 0 then ([], Ok (Some (real 0))) else if z =? 1 then yesM (simp n prefer a) else ([], Ok None).
  Proof.
    intros Hc. unfold mul_478. replace (rcast (PBin OMul PReal PAny) (EMul (EReal c) a)) with (Some (EMul (EReal c) a)).
    - rewrite (tiny_lit _ _ Hc), (eqb_lit _ _ _ _ Hc lit0), (eqb_lit _ _ _ _ Hc lit1).
      destruct (z =? 0); reflexivity.
    - destruct a; reflexivity.
  Qed.
  Lemma mul_zero n c a : lit c 0 -> mul_run n c a = ([], Ok (real 0)).
  Proof. intros Hc. unfold mul_rules. cbn [first_rule]. rewrite (mul_478_run n c 0 a Hc). reflexivity. Qed.
  Lemma mul_one n c a r : lit c 1 -> simp n prefer a = ([], Ok r) -> mul_run n c a = ([], Ok r).
  Proof. intros Hc Ha. unfold mul_rules. cbn [first_rule]. rewrite (mul_478_run n c 1 a Hc). cbn [Z.eqb]. unfold yesM. rewrite Ha. reflexivity. Qed.

  Ltac nxtm := rewrite first_no; [|reflexivity].

  Lemma mul_sum n c z a b : lit c z -> z <> 0 -> z <> 1 -> ok (Z.abs z + 1) -> prefer = true \/ z = -1 ->
    mul_run n c (EAdd a b) = simp n prefer (EAdd (EMul (EReal c) a) (EMul (EReal c) b)).
  Proof.
    intros Hc Z0 Z1 Hw Hp. unfold mul_rules.
    rewrite first_no; [|rewrite (mul_478_run n c z _ Hc); apply Z.eqb_neq in Z0, Z1; now rewrite Z0, Z1].
    do 21 nxtm. cbn [first_rule].
    replace (mul_723 (simp n prefer) prefer (EReal c) (EAdd a b)) with
      (yesM (simp n prefer (EAdd (EMul (EReal c) a) (EMul (EReal c) b)))).
    - unfold yesM. destruct (simp n prefer _) as [t [e|s|x| |u|]]; cbn; rewrite ?app_nil_r; reflexivity.
    - unfold mul_723. cbn -[simp tiny]. destruct Hp as [->| ->]; [reflexivity|].
      rewrite (tiny_lit _ (-1 + 1)); [now destruct prefer|]. apply (il_add _ _ _ IL); auto using lit1.
      eapply okle; [exact Hw|]. cbn. lia.
  Qed.
  Lemma mul_scaled n c z d w p x k : lit c z -> lit d w -> power p x k -> z <> 0 -> z <> 1 ->
    mul_run n c (EMul (EReal d) p) = ([], Ok (EMul (EReal (n_mul c d)) p)).
  Proof.
    intros Hc Hd Hp Z0 Z1. unfold mul_rules.
    rewrite first_no; [|rewrite (mul_478_run n c z _ Hc); apply Z.eqb_neq in Z0, Z1; now rewrite Z0, Z1].
    destruct Hp as [x|x e k He K0 K1].
    - do 22 nxtm; cbn [first_rule].
      unfold mul_rest. cbn -[simp]. unfold strip_exp. cbn. change (n_of_Z 1) with n1.
      rewrite (eqb_lit _ _ _ _ lit1 lit1). reflexivity.
    - do 22 nxtm; cbn [first_rule].
      unfold mul_rest. cbn -[simp]. unfold strip_exp. cbn. rewrite (eqb_lit _ _ _ _ He lit1).
      apply Z.eqb_neq in K1. rewrite K1. reflexivity.
  Qed.

  Lemma refines_scale_zero ts : (1 <= length ts)%nat -> refines [(None, 0)] (scale 0 ts).
  Proof.
    intros L. repeat split.
    - intros k. rewrite total_scale. cbn. destruct (key_eqb k None); reflexivity.
    - intros p [H|[]]. discriminate.
    - rewrite weight_scale. cbn. lia.
    - rewrite length_scale. exact L.
  Qed.
  Lemma scale_one ts : scale 1 ts = ts.
  Proof. induction ts as [|t ts IH]; [reflexivity|]. cbn [scale map]. fold (scale 1 ts). rewrite IH. destruct t. cbn [fst snd]. now rewrite Z.mul_1_l. Qed.
  Lemma yields_visit_mul c a a' n r : yields prefer a a' -> (forall m, (n <= m)%nat -> mul_run m c a' = ([], Ok r)) ->
    yields prefer (EMul (EReal c) a) r.
  Proof.
    intros (k & Hk) H. exists (S (S (max n k))). change (simp (S (S (max n k))) prefer (EMul (EReal c) a)) with
      (visit_mul (simp (S (max n k)) prefer) prefer (EReal c) a). unfold visit_mul.
    rewrite (operands_run _ _ _ _ (EReal c) a'); [apply H; lia|reflexivity|]. eapply yields_ge; [exact Hk|lia].
  Qed.

  Definition may_scale (z : Z) (ts : list monomial) : Prop := prefer = true \/ z = -1 \/ length ts = 1%nat.
  Definition fits (z : Z) (ts : list monomial) : Prop := ok (Z.abs z + 1) /\ ok (Z.abs z * weight ts) /\ ok (weight ts).

  Lemma may_scale_refines z a b : may_scale z b -> refines a b -> (1 <= length a)%nat -> may_scale z a.
  Proof. intros H (_ & _ & _ & K) L. destruct H as [H|[H|H]]; [now left|right; now left|right; right; lia]. Qed.
  Lemma fits_refines z a b : fits z b -> refines a b -> fits z a.
  Proof.
    intros (H1 & H2 & H3) (_ & _ & K & _). pose proof (weight_nonneg a). repeat split; auto.
    - eapply okle; [exact H2|]. rewrite !Z.abs_mul, Z.abs_involutive. apply Z.mul_le_mono_nonneg_l; lia.
    - eapply okle; [exact H3|]. lia.
  Qed.

  Lemma mul_core c z : post = false -> lit c z -> forall L a ta, (length ta <= L)%nat -> plain a ta -> may_scale z ta -> fits z ta ->
    exists n r, (forall m, (n <= m)%nat -> mul_run m c a = ([], Ok r)) /\ res r (scale z ta).
  Proof.
    intros Hpost Hc. induction L as [|L IH]; intros a ta Hl Ha Hm Hf; [apply plain_length in Ha; lia|].
    destruct (Z.eq_dec z 0) as [->|Z0].
    { exists 0%nat, (real 0). split; [intros m _; now apply mul_zero|].
      eapply res_term; [constructor; apply lit0|]. apply refines_scale_zero. eapply plain_length; eauto. }
    destruct (Z.eq_dec z 1) as [->|Z1].
    { destruct (plain_yields a ta Ha) as (r & (n & Hn) & Hr); [apply Hf|]. exists n, r. rewrite scale_one. split; auto.
      intros m Hnm. apply mul_one; auto. eapply yields_ge; eauto. }
    destruct Ha as [a t Ht|a b ta tb Ha Hb Hap].
    - destruct Hf as (F1 & F2 & F3). cbn -[Z.abs Z.mul Z.add] in F2.
      destruct Ht as [d w Hd|p x k Hp|d w p x k m Hd Hp Hmul]; cbn -[Z.abs Z.mul Z.add] in F2.
      + exists 0%nat, (EReal (n_mul c d)). split.
        * intros m _. unfold mul_rules. rewrite first_no; [|rewrite (mul_478_run m c z _ Hc); apply Z.eqb_neq in Z0, Z1; now rewrite Z0, Z1].
          now apply first_yes.
        * apply res_term with (t := (None, z * w)); [|apply refines_refl]. constructor. apply (il_mul _ _ _ IL); auto.
          eapply okle; [exact F2|]. rewrite Z.add_0_r, !Z.abs_mul, !Z.abs_involutive. lia.
      + exists 2%nat, (scaled (EMul (EReal c) p) z p). split.
        * intros m Hm'. destruct m as [|[|m]]; try lia. pose proof (simp_scaled m c z p x k _ Hc Hp (ml_pre _ _ _ _)) as K.
          change (simp (S (S (S m))) prefer (EMul (EReal c) p)) with (visit_mul (simp (S (S m)) prefer) prefer (EReal c) p) in K.
          unfold visit_mul in K. rewrite (operands_run _ _ _ _ (EReal c) p) in K; [exact K|reflexivity|].
          eapply simp_power; eauto.
        * cbn -[Z.mul]. rewrite Z.mul_1_r. eapply scaled_res; eauto using ml_pre.
      + destruct Hmul as [|Hpost']; [|congruence].
        exists 0%nat, (EMul (EReal (n_mul c d)) p). split; [intros m _; eapply mul_scaled; eauto|].
        apply res_term with (t := (Some (x, k), z * w)); [|apply refines_refl]. econstructor; [|exact Hp|constructor]. apply (il_mul _ _ _ IL); auto.
        eapply okle; [exact F2|]. rewrite Z.add_0_r, !Z.abs_mul, !Z.abs_involutive. lia.
    - rewrite app_length in Hl. pose proof (plain_length _ _ Ha) as La. pose proof (plain_length _ _ Hb) as Lb.
      assert (Hpz : prefer = true \/ z = -1).
      { destruct Hm as [H|[H|H]]; auto. rewrite app_length in H. lia. }
      assert (Hma : forall ts, may_scale z ts) by (intros ts; unfold may_scale; tauto).
      destruct Hf as (F1 & F2 & F3). rewrite weight_app in F2, F3. pose proof (weight_nonneg ta) as Wa. pose proof (weight_nonneg tb) as Wb.
      assert (Step : forall e ts, (length ts <= L)%nat -> plain e ts -> fits z ts ->
                exists r, yields prefer (EMul (EReal c) e) r /\ res r (scale z ts)).
      { intros e ts Le He Hfe. destruct (plain_yields e ts He) as (e' & Ye & (tr & (Pe & _) & Re)); [apply Hfe|].
        destruct (IH e' tr) as (n & r & Hn & (tr' & S' & R')); auto.
        - destruct Re as (_ & _ & _ & Re). lia.
        - eapply fits_refines; eauto.
        - exists r. split; [eapply yields_visit_mul; eauto|]. exists tr'. split; auto.
          eapply refines_trans; [exact R'|]. now apply refines_scale. }
      destruct (Step a ta) as (ra & Ya & Ra); [lia|exact Ha| |].
      { split; [exact F1|]. split; eapply okle; [exact F2| |exact F3|lia].
        rewrite !Z.abs_mul, Z.abs_involutive. apply Z.mul_le_mono_nonneg_l; lia. }
      destruct (Step b tb) as (rb & Yb & Rb); [lia|exact Hb| |].
      { split; [exact F1|]. split; eapply okle; [exact F2| |exact F3|lia].
        rewrite !Z.abs_mul, Z.abs_involutive. apply Z.mul_le_mono_nonneg_l; lia. }
      destruct (yields_add _ _ _ _ _ _ Ya Ra Yb Rb) as (r & (n & Hn) & Hr).
      + now apply apart_scale.
      + rewrite <- scale_app, weight_scale, weight_app. exact F2.
      + exists n, r. split; [|now rewrite scale_app]. intros m Hnm. rewrite (mul_sum m c z a b Hc Z0 Z1 F1 Hpz).
        eapply yields_ge; eauto.
  Qed.

  Lemma yields_scale c z a a' ta : post = false -> lit c z -> yields prefer a a' -> res a' ta -> may_scale z ta -> fits z ta ->
    exists r, yields prefer (EMul (EReal c) a) r /\ res r (scale z ta).
  Proof.
    intros Hpost Hc Ya (tr & Sa & Ra) Hm Hf. pose proof (plain_length _ _ (proj1 Sa)) as La.
    destruct (mul_core c z Hpost Hc (length tr) a' tr (le_n _) (proj1 Sa)) as (n & r & Hn & (tr' & S' & R')).
    - eapply may_scale_refines; eauto.
    - eapply fits_refines; eauto.
    - exists r. split; [eapply yields_visit_mul; eauto|]. exists tr'. split; auto.
      eapply refines_trans; [exact R'|]. now apply refines_scale.
  Qed.

  (** ** Differences *)
  Lemma ok2 : ok 2.
  Proof. apply (il_ok_2 _ _ _ IL). Qed.
  Lemma fits_neg ts : ok (weight ts) -> fits (-1) ts.
  Proof. intros H. pose proof (weight_nonneg ts). split; [exact ok2|]. split; [|exact H]. eapply okle; [exact H|]. change (Z.abs (-1)) with 1. lia. Qed.
  Lemma may_neg ts : may_scale (-1) ts.
  Proof. right. now left. Qed.
  Lemma plain_neg b tb : post = false -> plain b tb -> ok (weight tb) ->
    exists r, yields prefer (EMul (real (-1)) b) r /\ res r (scale (-1) tb).
  Proof.
    intros Hpost Hb Hw. destruct (plain_yields b tb Hb Hw) as (b' & Yb & Rb).
    apply (yields_scale nm1 (-1) b b' tb Hpost litm1 Yb Rb (may_neg _)). now apply fits_neg.
  Qed.
  Lemma weight_neg ts : weight (scale (-1) ts) = weight ts.
  Proof. rewrite weight_scale. cbn. destruct (weight ts); reflexivity. Qed.

  (** ** Sums that are already combined *)
  Lemma add_unlike n a b ta tb : plain a ta -> plain b tb -> NoDup (keys (ta ++ tb)) ->
    Forall (fun t => snd t <> 0) (ta ++ tb) -> add_run n a b = add_rest (addS n) a b.
  Proof.
    intros Ha Hb Hd Hz. apply Forall_app in Hz. destruct Hz as [Za Zb].
    assert (Hap : apart ta tb) by (apply unlike_apart; auto; eapply plain_length; eauto).
    assert (D : forall k, In k (keys ta) -> ~ In k (keys tb)) by (rewrite keys_app in Hd; now apply nodup_app in Hd).
    assert (Zc : forall c z, lit c z -> z <> 0 -> n_eqb c n0 = false).
    { intros c z Hc Hz. rewrite (eqb_lit _ _ _ _ Hc lit0). now apply Z.eqb_neq. }
    unfold add_rules.
    destruct Ha as [a t Ht|a1 a2 t1 t2 H1 H2 Hap1], Hb as [b u Hu|b1 b2 u1 u2 G1 G2 Hap2].
    - assert (Hk : fst t <> fst u) by (intros K; apply (D (fst t)); [now left|rewrite K; now left]).
      destruct (m_eq_terms a b t u Ht Hu) as (q & M & Kq). destruct q; [specialize (Kq eq_refl); congruence|]. clear Kq.
      inversion Za as [|? ? Z1 _]; inversion Zb as [|? ? Z2 _]; subst.
      destruct Ht as [c z Hc|p x k Hp|c z p x k m Hc Hp Hm], Hu as [d w Hd'|q y j Hq|d w q y j l Hd' Hq Hl]; cbn [fst snd] in *.
      + congruence.
      + pose proof (Zc _ _ Hc Z1) as Ec. destruct Hq; do 7 nxt; reflexivity.
      + pose proof (Zc _ _ Hc Z1) as Ec. assert (M2 := m_eq_cp c q y j Hq). destruct Hq, Hl; do 7 nxt; reflexivity.
      + pose proof (Zc _ _ Hd' Z2) as Ec. destruct Hp; do 7 nxt; reflexivity.
      + destruct Hp, Hq; do 7 nxt; reflexivity.
      + pose proof (m_eq_power q p _ _ _ _ Hq Hp) as M2. apply not_eq_sym, key_eqb_neq in Hk. rewrite Hk in M2.
        destruct Hp, Hq, Hl; do 7 nxt; reflexivity.
      + pose proof (Zc _ _ Hd' Z2) as Ec. assert (M2 := m_eq_cp d p x k Hp). destruct Hp, Hm; do 7 nxt; reflexivity.
      + pose proof (m_eq_power p q _ _ _ _ Hp Hq) as M2. apply key_eqb_neq in Hk. rewrite Hk in M2.
        destruct Hp, Hq, Hm; do 7 nxt; reflexivity.
      + pose proof (m_eq_power p q _ _ _ _ Hp Hq) as M2. apply key_eqb_neq in Hk. rewrite Hk in M2.
        assert (M3 := m_eq_pm d w p q l x k Hp Hl). destruct Hp, Hq, Hm, Hl; do 7 nxt; reflexivity.
    - pose proof (m_eq_sum_r a b1 b2 t Ht) as M. inversion Za as [|? ? Z1 _]; subst.
      destruct Ht as [c z Hc|p x k Hp|c z p x k m Hc Hp Hm]; cbn [fst snd] in *.
      + pose proof (Zc _ _ Hc Z1) as Ec. do 7 nxt; reflexivity.
      + destruct Hp; do 7 nxt; reflexivity.
      + pose proof (m_eq_sum_r p b1 b2 _ (tm_power _ _ _ _ _ Hp)) as M2. destruct Hp, Hm; do 7 nxt; reflexivity.
    - pose proof (m_eq_sum_l b a1 a2 u Hu) as M. inversion Zb as [|? ? Z1 _]; subst.
      destruct Hu as [c z Hc|p x k Hp|c z p x k m Hc Hp Hm]; cbn [fst snd] in *.
      + pose proof (Zc _ _ Hc Z1) as Ec. do 7 nxt; reflexivity.
      + destruct Hp; do 7 nxt; reflexivity.
      + pose proof (m_eq_sum_r p a1 a2 _ (tm_power _ _ _ _ _ Hp)) as M2. destruct Hp, Hm; do 7 nxt; reflexivity.
    - assert (M : m_eq (EAdd a1 a2) (EAdd b1 b2) = ([], Ok false)).
      { eapply m_eq_apart; [constructor; eauto|constructor; eauto|exact Hap|left; now exists a1, a2]. }
      do 7 nxt; reflexivity.
  Qed.

  Lemma strip_entry e t : neat e t -> strip_coef (entry_of e) = e /\ add_zero e = false /\ add_zero_bad e = false.
  Proof.
    intros H. destruct H as [c z Hc Hz|e x k Hp|c z e x k Hc Z0 Z1 Hp].
    - cbn. rewrite (tiny_lit _ _ Hc). apply Z.eqb_neq in Hz. now rewrite Hz.
    - destruct Hp; cbn; change (n_of_Z 1) with n1; rewrite (eqb_lit _ _ _ _ lit1 lit1); auto.
    - unfold strip_coef. cbn. rewrite (eqb_lit _ _ _ _ Hc lit1), (tiny_lit _ _ Hc).
      apply Z.eqb_neq in Z0, Z1. rewrite Z0, Z1. auto.
  Qed.
  Lemma strip_entries l tl : Forall2 neat l tl ->
    map strip_coef (map entry_of l) = l /\ filter (fun v => negb (add_zero v)) l = l /\ existsb add_zero_bad l = false.
  Proof.
    intros H. induction H as [|e t l tl He H (I1 & I2 & I3)]; [repeat split; reflexivity|].
    destruct (strip_entry e t He) as (S1 & S2 & S3). cbn [map filter existsb]. rewrite S1, I1, S2, S3, I2, I3. repeat split.
  Qed.

  Lemma add_rest_combined n a b ta tb l tl e : plain a ta -> plain b tb -> flat OAdd a ++ flat OAdd b = l ->
    tl = ta ++ tb -> Forall2 neat l tl -> NoDup (keys tl) -> ok (weight tl) -> build OAdd l = Some e ->
    add_rest (simp (S (S n)) prefer) a b = ([], Ok e).
  Proof.
    intros Ha Hb <- -> Hl Hd Hw He. unfold add_rest, flatten.
    destruct (collect_all n (flat OAdd a ++ flat OAdd b) (ta ++ tb) [] []) as (vals & -> & _ & Hv);
      [apply Forall2_app; now apply plain_flat|constructor|exact Hw|].
    rewrite bind_ok, (Hv Hd). cbn [app]. destruct (strip_entries _ _ Hl) as (-> & -> & ->).
    rewrite He. reflexivity.
  Qed.

  (* the canonical expression of a list of terms *)
  Definition canon (l : list E) : option E := match l with [e] => Some e | _ => build OAdd l end.

  Lemma neat_yields e t : neat e t -> yields prefer e e.
  Proof.
    intros H. destruct H as [c z Hc Hz|e x k Hp|c z e x k Hc Z0 Z1 Hp].
    - exists 1%nat. reflexivity.
    - exists 2%nat. eapply simp_power; eauto.
    - exists 3%nat. rewrite (simp_scaled 0 c z e x k _ Hc Hp (ml_pre _ _ _ _)). unfold scaled. apply Z.eqb_neq in Z0, Z1. now rewrite Z0, Z1.
  Qed.
  Lemma neat_flat l tl : Forall2 neat l tl -> flat_map (flat OAdd) l = l.
  Proof.
    intros H. induction H as [|e t l tl He H IH]; [reflexivity|]. cbn [flat_map]. rewrite IH.
    destruct He as [c z Hc Hz|e x k Hp|c z e x k Hc Z0 Z1 Hp]; [|destruct Hp|]; reflexivity.
  Qed.
  Lemma canon_flat l tl r : Forall2 neat l tl -> canon l = Some r -> flat OAdd r = l.
  Proof.
    intros H Hc. destruct l as [|e [|f l]]; [discriminate| |].
    - injection Hc as <-. pose proof (neat_flat _ _ H) as K. cbn in K. now rewrite app_nil_r in K.
    - destruct (build_spec OAdd (e :: f :: l)) as (x & y & K1 & K2); [simpl; lia|].
      change (build OAdd (e :: f :: l) = Some r) in Hc. rewrite K1 in Hc. injection Hc as <-.
      rewrite (neat_flat _ _ H) in K2. exact K2.
  Qed.
  Lemma canon_plain l tl r : Forall2 neat l tl -> NoDup (keys tl) -> canon l = Some r -> plain r tl.
  Proof.
    intros H Hd Hc. destruct l as [|e [|f l]]; [discriminate| |].
    - injection Hc as <-. inversion H as [|? t ? tl' He Hn]; subst. inversion Hn; subst. constructor. now apply neat_term.
    - exact (proj1 (settled_build _ _ _ Hc H Hd)).
  Qed.
  Lemma canon_some l : l <> [] -> exists r, canon l = Some r.
  Proof.
    intros H. destruct l as [|e [|f l]]; [congruence|now exists e|].
    destruct (build_spec OAdd (e :: f :: l)) as (x & y & K1 & K2); [simpl; lia|]. eauto.
  Qed.
  Lemma canon_app l1 l2 : l1 <> [] -> l2 <> [] -> canon (l1 ++ l2) = build OAdd (l1 ++ l2).
  Proof.
    intros H1 H2. destruct l1 as [|e [|f l1]]; [congruence| |reflexivity]. destruct l2; [congruence|reflexivity].
  Qed.

  Lemma combined_yields d l t tl : tree_over OAdd d l t -> Forall2 neat l tl -> NoDup (keys tl) -> ok (weight tl) ->
    exists r, yields prefer t r /\ canon l = Some r.
  Proof.
    intros H. revert tl. induction H as [d e|d l1 l2 a b H1 IH1 H2 IH2]; intros tl Hl Hd Hw.
    - inversion Hl as [|? u ? l' Hu Hn]; subst. exists e. split; [eapply neat_yields; eauto|reflexivity].
    - apply Forall2_app_inv_l in Hl. destruct Hl as (t1 & t2 & F1 & F2 & ->).
      assert (Hd' := Hd). rewrite keys_app in Hd'. apply nodup_app in Hd'. destruct Hd' as (D1 & D2 & _).
      assert (Hw' := Hw). rewrite weight_app in Hw'. pose proof (weight_nonneg t1). pose proof (weight_nonneg t2).
      destruct (IH1 t1 F1 D1) as (a' & (n & Ya) & Ca); [eapply okle; [exact Hw'|lia]|].
      destruct (IH2 t2 F2 D2) as (b' & (m & Yb) & Cb); [eapply okle; [exact Hw'|lia]|].
      apply tree_over_nonempty in H1, H2.
      assert (N1 : l1 <> []) by (intros ->; cbn in H1; lia). assert (N2 : l2 <> []) by (intros ->; cbn in H2; lia).
      destruct (canon_some (l1 ++ l2)) as (r & Hr); [destruct l1; [congruence|discriminate]|].
      exists r. split; [|exact Hr]. rewrite canon_app in Hr by auto.
      exists (S (S (S (S (max n m))))). change (simp (S (S (S (S (max n m))))) prefer (EAdd a b)) with
          (visit_add (addS (max n m)) a b). unfold visit_add.
      rewrite (operands_run _ _ _ _ a' b'); [|eapply yields_ge; eauto; lia|eapply yields_ge; eauto; lia].
      pose proof (canon_plain _ _ _ F1 D1 Ca) as P1. pose proof (canon_plain _ _ _ F2 D2 Cb) as P2.
      rewrite (add_unlike (max n m) a' b' t1 t2 P1 P2 Hd).
      + eapply add_rest_combined; eauto.
        * rewrite (canon_flat l1 t1 a' F1 Ca), (canon_flat l2 t2 b' F2 Cb). now apply Forall2_app.
        * now rewrite (canon_flat l1 t1 a' F1 Ca), (canon_flat l2 t2 b' F2 Cb).
      + apply Forall_app. split; [clear - F1; induction F1|clear - F2; induction F2]; constructor; eauto using neat_nonzero.
  Qed.

  (** ** Equal polynomials *)
  Lemma neat_equal e e' t : neat e t -> neat e' t -> equals e e' = Some true.
  Proof.
    intros H H'. destruct H as [c z Hc Hz|p x k Hp|c z p x k Hc Z0 Z1 Hp].
    - inversion H' as [d w Hd Hw| |]; subst. cbn. rewrite (eqb_lit _ _ _ _ Hc Hd). now rewrite Z.eqb_refl.
    - inversion H' as [|q y j Hq|d w q y j Hd W0 W1 Hq]; subst; [|congruence].
      destruct (equals_power p e' _ _ _ _ Hp Hq) as [K _]. now rewrite key_eqb_refl in K.
    - inversion H' as [|q y j Hq|d w q y j Hd W0 W1 Hq]; subst; [congruence|].
      destruct (equals_power p q _ _ _ _ Hp Hq) as [K _]. rewrite key_eqb_refl in K.
      rewrite equals_bin. cbn [binop_eqb]. change (equals (EReal c) (EReal d)) with (Some (n_eqb c d)).
      now rewrite K, (eqb_lit _ _ _ _ Hc Hd), Z.eqb_refl.
  Qed.
  Lemma found_in e t m tm : neat e t -> Forall2 neat m tm -> In t tm -> find_eq (equals e) m = Some true.
  Proof.
    intros He H. induction H as [|y u m tm Hy H IH]; intros Hi; [destruct Hi|]. cbn [find_eq].
    destruct (equals_terms e y t u (neat_term _ _ He) (neat_term _ _ Hy)) as (q & K & _). rewrite K. destruct q; [reflexivity|].
    destruct Hi as [<-|Hi]; [|now apply IH]. rewrite (neat_equal e y u He Hy) in K. discriminate.
  Qed.
  Lemma all_found_equal l tl m tm : Forall2 neat l tl -> Forall2 neat m tm -> incl tl tm -> all_found l m = Some true.
  Proof.
    intros H Hm. induction H as [|e t l tl He H IH]; intros Hi; [reflexivity|]. cbn [all_found].
    rewrite (found_in e t m tm He Hm) by (apply Hi; now left). apply IH. intros u Hu. apply Hi. now right.
  Qed.
  Lemma same_totals_incl tl tm l m : Forall2 neat l tl -> Forall2 neat m tm -> NoDup (keys tl) -> NoDup (keys tm) ->
    (forall k, total k tl = total k tm) -> incl tl tm.
  Proof.
    intros Hl Hm Dl Dm Ht [k z] Hi. pose proof (total_nodup k z tl Dl Hi) as K.
    assert (Nz : z <> 0).
    { clear - Hl Hi. induction Hl as [|e t l tl He Hl IH]; [destruct Hi|]. destruct Hi as [->|Hi]; auto. now apply neat_nonzero in He. }
    rewrite Ht in K. assert (Hk : In k (keys tm)) by (apply total_in; lia).
    unfold keys in Hk. apply in_map_iff in Hk. destruct Hk as ([k' w] & <- & Hw). cbn [fst] in *.
    rewrite (total_nodup k' w tm Dm Hw) in K. now subst.
  Qed.

  Theorem combined_equal l r m r' ts ts' : build OAdd l = Some r -> build OAdd m = Some r' ->
    combined lit l ts -> combined lit m ts' -> (forall k, total k ts = total k ts') -> equals r r' = Some true.
  Proof.
    intros Hr Hr' (tl & Fl & Dl & Tl) (tm & Fm & Dm & Tm) Ht.
    assert (Hi : incl tl tm) by (eapply same_totals_incl; eauto; intros k; now rewrite Tl, Tm).
    pose proof (proj1 (settled_build _ _ _ Hr Fl Dl)) as Pr. pose proof (proj1 (settled_build _ _ _ Hr' Fm Dm)) as Pr'.
    assert (L2 : (2 <= length l)%nat) by (destruct l as [|? [|? ?]]; try discriminate Hr; simpl; lia).
    assert (M2 : (2 <= length m)%nat) by (destruct m as [|? [|? ?]]; try discriminate Hr'; simpl; lia).
    destruct (build_spec OAdd l L2) as (a & b & K1 & K2). rewrite Hr in K1. injection K1 as ->.
    destruct (build_spec OAdd m M2) as (a' & b' & K1' & K2'). rewrite Hr' in K1'. injection K1' as ->.
    rewrite (neat_flat _ _ Fl) in K2. rewrite (neat_flat _ _ Fm) in K2'.
    rewrite equals_bin. cbn [binop_eqb assoc]. rewrite K2, K2'.
    inversion Pr as [e t Ht'|? ? ta tb Pa Pb _]; subst; [destruct (term_not_sum _ _ _ Ht')|].
    inversion Pr' as [e t Ht'|? ? ta' tb' Pa' Pb' _]; subst; [destruct (term_not_sum _ _ _ Ht')|].
    destruct (equals_plain _ _ _ _ Pa Pa') as (q1 & -> & _). destruct (equals_plain _ _ _ _ Pb Pb') as (q2 & -> & _).
    destruct (q1 && q2); [reflexivity|]. eapply all_found_equal; eauto.
  Qed.

  Lemma combined_parts l r ts : build OAdd l = Some r -> combined lit l ts ->
    exists tl, Forall2 neat l tl /\ NoDup (keys tl) /\ (forall k, total k tl = total k ts) /\ plain r tl.
  Proof.
    intros Hr (tl & Fl & Dl & Tl). exists tl. split; [exact Fl|]. split; [exact Dl|]. split; [exact Tl|].
    exact (proj1 (settled_build _ _ _ Hr Fl Dl)).
  Qed.
  (* Equals answers; a yes says that the terms of the first occur in the second *)
  Theorem combined_equals l r m r' ts ts' : build OAdd l = Some r -> build OAdd m = Some r' ->
    combined lit l ts -> combined lit m ts' ->
    exists q, equals r r' = Some q /\ (q = true -> forall k, total k ts <> 0 -> total k ts' = total k ts).
  Proof.
    intros Hr Hr' Cl Cm. destruct (combined_parts _ _ _ Hr Cl) as (tl & Fl & Dl & Tl & Pl).
    destruct (combined_parts _ _ _ Hr' Cm) as (tm & Fm & Dm & Tm & Pm).
    destruct (equals_incl r r' tl tm Pl Pm) as (q & K & I). exists q. split; [exact K|]. intros Hq k Hk.
    rewrite <- Tl in Hk. assert (Ik : In k (keys tl)) by (now apply total_in).
    unfold keys in Ik. apply in_map_iff in Ik. destruct Ik as ([k' z] & <- & Hz). cbn [fst] in *.
    rewrite <- Tm, <- Tl, (total_nodup k' z tl Dl Hz). apply total_nodup; [exact Dm|]. now apply I.
  Qed.

End Runs.

(** ** Differences and polynomials *)
Section Polys.
  Context {num : Type} {N : NumOps num}.
  Variables (lit : num -> Z -> Prop) (ok : Z -> Prop).
  Hypothesis IL : IntLits N lit ok.
  Variable prefer : bool.
  Notation E := (expr num).
  Notation power := (power lit).
  Notation term := (term lit).
  Notation plain := (plain lit).
  Notation neat := (neat lit).
  Notation poly := (poly lit ok).
  Notation res := (res lit).
  Notation settled := (settled lit).
  Local Notation okle := (PolyProofs.okle lit ok IL).
  Local Notation lit0 := (PolyProofs.lit0 lit ok IL).
  Local Notation lit1 := (PolyProofs.lit1 lit ok IL).
  Local Notation m_eq_power := (PolyProofs.m_eq_power lit ok IL).

  Lemma term_post post e t : term false e t -> term post e t.
  Proof.
    intros H. destruct H as [c z Hc|p x k Hp|c z p x k m Hc Hp Hm]; [now constructor|now constructor|].
    econstructor; eauto. destruct Hm; [constructor|discriminate].
  Qed.
  Lemma plain_post post e ts : plain false e ts -> plain post e ts.
  Proof. intros H. induction H; constructor; auto using term_post. Qed.
  Lemma res_post post r ts : res false r ts -> res post r ts.
  Proof. intros (tr & (P & K) & R). exists tr. split; [split; [now apply plain_post|exact K]|exact R]. Qed.

  Notation sub_run m a b :=
    (first_rule (sub_rules (simp m prefer)) (fun l r => simp m prefer (EAdd l (EMul (real (-1)) r))) a b).

  Lemma sub_default post a b ta tb : plain post a ta -> plain false b tb -> apart ta tb -> ok (weight (ta ++ tb)) ->
    exists r, yields prefer (EAdd a (EMul (real (-1)) b)) r /\ res post r (ta ++ scale (-1) tb).
  Proof.
    intros Ha Hb Hap Hw. rewrite weight_app in Hw. pose proof (weight_nonneg ta). pose proof (weight_nonneg tb).
    destruct (plain_yields lit ok IL post prefer a ta Ha) as (a' & Ya & Ra); [eapply okle; [exact Hw|lia]|].
    destruct (plain_neg lit ok IL false prefer b tb eq_refl Hb) as (b' & Yb & Rb); [eapply okle; [exact Hw|lia]|].
    eapply (yields_add lit ok IL); eauto using res_post.
    - rewrite <- (scale_one ta). now apply apart_scale.
    - now rewrite weight_app, weight_neg.
  Qed.

  Lemma yields_mul_lit e c z p x k : yields prefer e (EReal c) -> lit c z -> power p x k ->
    yields prefer (EMul e p) (scaled (EMul (EReal c) p) z p).
  Proof.
    intros (n & Hn) Hc Hp. exists (S (S (S n))). pose proof (simp_scaled lit ok IL false prefer n c z p x k _ Hc Hp (ml_pre _ _ _ _)) as K.
    change (simp (S (S (S n))) prefer (EMul (EReal c) p)) with (visit_mul (simp (S (S n)) prefer) prefer (EReal c) p) in K.
    change (simp (S (S (S n))) prefer (EMul e p)) with (visit_mul (simp (S (S n)) prefer) prefer e p).
    pose proof (simp_power lit ok IL prefer n p x k Hp) as Kp.
    unfold visit_mul in *. rewrite (operands_run _ _ _ _ (EReal c) p) in K; [|reflexivity|exact Kp].
    rewrite (operands_run _ _ _ _ (EReal c) p); [exact K|eapply yields_ge; [exact Hn|lia]|exact Kp].
  Qed.
  Lemma yields_sub_lit c d : yields prefer (ESub (EReal c) (EReal d)) (EReal (n_sub c d)).
  Proof. exists 2%nat. reflexivity. Qed.

  Lemma first_yesM (r : E -> E -> rule) rs d a b m e : r a b = yesM m -> m = ([], Ok e) -> first_rule (r :: rs) d a b = ([], Ok e).
  Proof. intros H ->. apply first_yes. exact H. Qed.

  Ltac gos := cbn -[m_eq simp String.eqb Z.eqb n0 n1 n2].
  Ltac meq :=
    repeat match goal with
    | H : m_eq ?a ?b = _ |- context [m_eq ?a ?b] => rewrite H
    end.
  Ltac nxts := rewrite first_no; [|solve [reflexivity | unfold sub_368, sub_384, sub_392, sub_400; gos; meq; reflexivity]].

  Lemma refines_diff k y z : refines [(k, y - z)] [(k, y); (k, -1 * z)].
  Proof. replace (y - z) with (y + -1 * z) by lia. apply refines_merge. Qed.

  (* two terms with the same power *)
  Lemma sub_like post c z d w q x k : lit c z -> lit d w -> power q x k -> ok (Z.abs z + Z.abs w) ->
    res post (scaled (EMul (EReal (n_sub c d)) q) (z - w) q) [(Some (x, k), z); (Some (x, k), -1 * w)] /\
    yields prefer (EMul (ESub (EReal c) (EReal d)) q) (scaled (EMul (EReal (n_sub c d)) q) (z - w) q).
  Proof.
    intros Hc Hd Hq Hw. assert (Hs : lit (n_sub c d) (z - w)) by (apply (il_sub _ _ _ IL); auto; eapply okle; [exact Hw|lia]).
    split.
    - destruct (scaled_res lit ok IL post (n_sub c d) (z - w) q x k _ Hs Hq (ml_pre _ _ _ _)) as (tr & St & Rt).
      exists tr. split; auto. eapply refines_trans; [exact Rt|apply refines_diff].
    - eapply yields_mul_lit; eauto. apply yields_sub_lit.
  Qed.

  Lemma refines_cancel t : refines [(None, 0)] [t; (fst t, -1 * snd t)].
  Proof.
    repeat split.
    - intros k. cbn -[Z.mul Z.add]. destruct (key_eqb k None), (key_eqb k (fst t)); lia.
    - intros p [H|[]]. discriminate.
    - cbn -[Z.abs Z.mul Z.add]. lia.
    - cbn. lia.
  Qed.

  (* a coefficient that follows its power is not the number subtracted *)
  Definition unclear (t u : monomial) : Prop := fst t <> None /\ fst u = None /\ snd t = snd u /\ snd t <> 0.

  (* two terms *)
  Lemma sub_terms post a b t u : term post a t -> term false b u -> ok (weight [t; u]) -> (post = true -> ~ unclear t u) ->
    exists n r, (forall m, (n <= m)%nat -> sub_run m a b = ([], Ok r)) /\ res post r [t; (fst u, -1 * snd u)].
  Proof.
    intros Ha Hb Hw Hu.
    destruct (sub_default post a b [t] [u]) as (rd & (nd & Hd) & Rd); [now constructor|now constructor|now left|exact Hw|].
    change ([t] ++ scale (-1) [u]) with [t; (fst u, -1 * snd u)] in Rd.
    destruct (m_eq_terms lit ok IL post a b t u Ha (term_post post _ _ Hb)) as (q & M & K). destruct q.
    { specialize (K eq_refl). subst u. exists 0%nat.
      destruct Ha as [c z Hc|p x k Hp|c z p x k m Hc Hp Hm].
      - inversion Hb as [d z' Hd'| |d z' e x k m Hd' Hp Hm]; subst. exists (EReal (n_sub c d)). split; [reflexivity|].
        apply (res_term lit post) with (t := (None, z - z)); [constructor; apply (il_sub _ _ _ IL); auto|apply refines_diff].
        eapply okle; [apply (ok2 lit ok IL)|lia].
      - exists (real 0). split; [|apply (res_term lit post) with (t := (None, 0)); [constructor; apply lit0|apply (refines_cancel (Some (x, k), 1))]].
        intros m _. unfold sub_rules. destruct Hp; (rewrite first_no; [|reflexivity]); apply first_yes; unfold sub_368; rewrite M; reflexivity.
      - exists (real 0). split; [|apply (res_term lit post) with (t := (None, 0)); [constructor; apply lit0|apply (refines_cancel (Some (x, k), z))]].
        intros n _. unfold sub_rules. destruct Hp, Hm; (rewrite first_no; [|reflexivity]); apply first_yes; unfold sub_368; rewrite M; reflexivity. }
    clear K. cbn -[Z.abs Z.add] in Hw.
    destruct Ha as [c z Hc|p x k Hp|c z p x k m Hc Hp Hm], Hb as [d w Hd'|q y j Hq|d w q y j l Hd' Hq Hl]; cbn [fst snd] in *;
      unfold sub_rules.
    - exists 0%nat, (EReal (n_sub c d)). split; [reflexivity|].
      apply (res_term lit post) with (t := (None, z - w)); [constructor; apply (il_sub _ _ _ IL); auto|apply refines_diff].
      eapply okle; [exact Hw|lia].
    - exists nd, rd. split; auto. intros n Hn. destruct Hq; do 9 nxts; eapply yields_ge; eauto.
    - exists nd, rd. split; auto. intros n Hn. destruct Hl as [|Hl]; [|discriminate]. assert (M2 := m_eq_pc lit c q y j Hq). do 9 nxts. eapply yields_ge; eauto.
    - exists nd, rd. split; auto. intros n Hn. destruct Hp; do 9 nxts; eapply yields_ge; eauto.
    - exists nd, rd. split; auto. intros n Hn. destruct Hp, Hq; do 9 nxts; eapply yields_ge; eauto.
    - destruct Hl as [|Hl]; [|discriminate].
      pose proof (m_eq_power p q _ _ _ _ Hp Hq) as M2. destruct (key_eqb (Some (x, k)) (Some (y, j))) eqn:Ek.
      + apply key_eqb_eq in Ek. injection Ek as <- <-.
        destruct (sub_like post n1 1 d w p x k lit1 Hd' Hp) as [R (n & Y)]; [eapply okle; [exact Hw|lia]|].
        exists n. eexists. split; [|exact R]. intros m Hn.
        destruct Hp; do 4 nxts; (eapply first_yesM; [unfold sub_392; gos; rewrite M2, bind_ok; reflexivity|eapply yields_ge; eauto]).
      + exists nd, rd. split; auto. intros n Hn. destruct Hp; do 9 nxts; eapply yields_ge; eauto.
    - exists nd, rd. split; auto. intros n Hn. destruct Hm as [|Hpost Hz].
      + assert (M2 := m_eq_cp lit d p x k Hp). do 9 nxts. eapply yields_ge; eauto.
      + assert (M2 : m_eq (EReal c) (EReal d) = ([], Ok false)).
        { unfold m_eq. cbn. rewrite (il_eqb _ _ _ IL _ _ _ _ Hc Hd'). destruct (Z.eqb_spec z w) as [->|]; [|reflexivity].
          exfalso. apply (Hu Hpost). repeat split; [discriminate|exact Hz]. }
        destruct Hp; do 9 nxts; eapply yields_ge; eauto.
    - pose proof (m_eq_power p q _ _ _ _ Hp Hq) as M2. destruct Hm as [|Hpost Hz].
      + destruct (key_eqb (Some (x, k)) (Some (y, j))) eqn:Ek.
        * apply key_eqb_eq in Ek. injection Ek as <- <-.
          destruct (sub_like post c z n1 1 q x k Hc lit1 Hq) as [R (n & Y)]; [eapply okle; [exact Hw|lia]|].
          exists n. eexists. split; [|exact R]. intros m Hn.
          destruct Hq; do 3 nxts; (eapply first_yesM; [unfold sub_384; gos; rewrite M2, bind_ok; reflexivity|eapply yields_ge; eauto]).
        * exists nd, rd. split; auto. intros n Hn. destruct Hq; do 9 nxts; eapply yields_ge; eauto.
      + exists nd, rd. split; auto. intros n Hn. destruct Hp, Hq; do 9 nxts; eapply yields_ge; eauto.
    - destruct Hl as [|Hl]; [|discriminate].
      pose proof (m_eq_power p q _ _ _ _ Hp Hq) as M2. destruct Hm as [|Hpost Hz].
      + assert (M3 := m_eq_pm lit false d w p q _ x k Hp (ml_pre _ _ _ _)). assert (M4 := m_eq_mp lit false c z q p _ y j Hq (ml_pre _ _ _ _)).
        destruct (key_eqb (Some (x, k)) (Some (y, j))) eqn:Ek.
        * apply key_eqb_eq in Ek. injection Ek as <- <-.
          destruct (sub_like post c z d w q x k Hc Hd' Hq) as [R (n & Y)]; [eapply okle; [exact Hw|lia]|].
          exists n. eexists. split; [|exact R]. intros m Hn.
          do 5 nxts; (eapply first_yesM; [unfold sub_400; gos; rewrite M2, bind_ok; reflexivity|eapply yields_ge; eauto]).
        * exists nd, rd. split; auto. intros n Hn. do 9 nxts; eapply yields_ge; eauto.
      + exists nd, rd. split; auto. intros n Hn. destruct Hp, Hq; do 9 nxts; eapply yields_ge; eauto.
  Qed.

  (* a sum minus a term *)
  Lemma sub_sum_term post x y b ts u : plain post (EAdd x y) ts -> term false b u -> ok (weight (ts ++ [u])) ->
    exists n r, (forall m, (n <= m)%nat -> sub_run m (EAdd x y) b = ([], Ok r)) /\ res post r (ts ++ scale (-1) [u]).
  Proof.
    intros Ha Hb Hw.
    destruct (sub_default post (EAdd x y) b ts [u]) as (rd & (nd & Hd) & Rd); [auto|now constructor|right; now left|exact Hw|].
    exists nd, rd. split; auto. intros m Hm. pose proof (m_eq_sum_l lit false b x y u Hb) as M. unfold sub_rules.
    destruct Hb as [d w Hd'|q v j Hq|d w q v j l Hd' Hq Hl].
    - do 9 nxts. eapply yields_ge; eauto.
    - destruct Hq; do 9 nxts; eapply yields_ge; eauto.
    - destruct Hl as [|Hl]; [|discriminate].
      pose proof (m_eq_sum_l lit false q x y _ (tm_power _ _ _ _ _ Hq)) as M2. do 9 nxts. eapply yields_ge; eauto.
  Qed.

  (* anything minus a sum *)
  Lemma sub_sum post a x y ta tb : plain post a ta -> plain false (EAdd x y) tb -> apart ta tb -> ok (weight (ta ++ tb)) ->
    exists n r, (forall m, (n <= m)%nat -> sub_run m a (EAdd x y) = ([], Ok r)) /\ res post r (ta ++ scale (-1) tb).
  Proof.
    intros Ha Hb Hap Hw. rewrite weight_app in Hw. pose proof (weight_nonneg ta) as Wa. pose proof (weight_nonneg tb) as Wb.
    assert (M : m_eq a (EAdd x y) = ([], Ok false))
      by (eapply (m_eq_apart lit ok IL); eauto using plain_post; right; now exists x, y).
    inversion Hb as [e t Ht|? ? tx ty Hx Hy Hxy]; subst; [destruct (term_not_sum _ _ _ _ _ Ht)|].
    rewrite weight_app in *. pose proof (weight_nonneg tx). pose proof (weight_nonneg ty).
    destruct (plain_neg lit ok IL false prefer x tx eq_refl Hx) as (x' & (nx & Yx) & (trx & Sx & Rx)); [eapply okle; [exact Hw|lia]|].
    destruct (plain_neg lit ok IL false prefer y ty eq_refl Hy) as (y' & (ny & Yy) & (try' & Sy & Ry)); [eapply okle; [exact Hw|lia]|].
    assert (Pxy : plain false (EAdd x' y') (trx ++ try')).
    { constructor; [apply Sx|apply Sy|]. eapply apart_refines; [apply (apart_scale (-1) (-1)); [lia|exact Hxy]|exact Rx|exact Ry| |];
        eapply plain_length; [apply Sx|apply Sy]. }
    assert (Rxy : refines (trx ++ try') (scale (-1) (tx ++ ty))) by (rewrite scale_app; now apply refines_app).
    assert (Wxy : weight (trx ++ try') <= weight tx + weight ty).
    { destruct Rxy as (_ & _ & K & _). rewrite weight_neg, (weight_app tx ty) in K. exact K. }
    pose proof (weight_nonneg (trx ++ try')) as W0.
    destruct (plain_yields lit ok IL false prefer _ _ Pxy) as (rhs & (nr & Yr) & (trr & Sr & Rr)); [eapply okle; [exact Hw|lia]|].
    pose proof (refines_trans _ _ _ Rr Rxy) as Rrhs. pose proof (weight_nonneg trr) as W1.
    assert (Wr : weight trr <= weight (trx ++ try')) by apply Rr.
    assert (Par : plain post (EAdd a rhs) (ta ++ trr)).
    { constructor; [exact Ha|apply plain_post; apply Sr|]. eapply apart_refines.
      - apply (apart_scale 1 (-1)); [lia|exact Hap].
      - rewrite scale_one. apply refines_refl.
      - exact Rrhs.
      - eapply plain_length; eauto.
      - eapply plain_length; apply Sr. }
    destruct (plain_yields lit ok IL post prefer _ _ Par) as (r & (n & Y) & (tr & Str & Rtr)); [rewrite weight_app; eapply okle; [exact Hw|lia]|].
    exists (max (max nx ny) (max nr n)), r. split.
    - intros m Hm.
      assert (K : sub_418 (simp m prefer) a (EAdd x y) = ([], Ok (Some r))).
      { change (sub_418 (simp m prefer) a (EAdd x y)) with
          (ms <- simp m prefer (EMul (real (-1)) x) ;; ls <- simp m prefer (EMul (real (-1)) y) ;;
           rhs <- simp m prefer (EAdd ms ls) ;; yesM (simp m prefer (EAdd a rhs)))%M.
        rewrite (yields_ge prefer _ _ nx m Yx), bind_ok by lia. rewrite (yields_ge prefer _ _ ny m Yy), bind_ok by lia.
        rewrite (yields_ge prefer _ _ nr m Yr), bind_ok by lia. unfold yesM. now rewrite (yields_ge prefer _ _ n m Y) by lia. }
      unfold sub_rules. destruct Ha as [a t Ht|a1 a2 t1 t2 H1 H2 Hap'].
      + destruct Ht as [c z Hc|p v k Hp|c z p v k l Hc Hp Hl].
        * do 7 nxts. now apply first_yes.
        * destruct Hp; do 7 nxts; now apply first_yes.
        * pose proof (m_eq_sum_r lit post p x y _ (tm_power _ _ _ _ _ Hp)) as M2. destruct Hl; do 7 nxts; now apply first_yes.
      + do 7 nxts. now apply first_yes.
    - exists tr. split; auto. eapply refines_trans; [exact Rtr|]. apply refines_app; [apply refines_refl|exact Rrhs].
  Qed.

  Lemma yields_sub post a b a' b' ta tb : yields prefer a a' -> res post a' ta -> yields prefer b b' -> res false b' tb ->
    apart ta tb -> (post = false \/ unshared ta tb) -> ok (weight (ta ++ tb)) ->
    exists r, yields prefer (ESub a b) r /\ res post r (ta ++ scale (-1) tb).
  Proof.
    intros (n1 & Y1) (ra & Sa & Ra) (n2 & Y2) (rb & Sb & Rb) Hap Hsh Hw.
    assert (K : exists n r, (forall m, (n <= m)%nat -> sub_run m a' b' = ([], Ok r)) /\ res post r (ra ++ scale (-1) rb)).
    { assert (Hap' : apart ra rb) by (eapply apart_refines; eauto; eapply plain_length; [apply Sa|apply Sb]).
      assert (Hw' : ok (weight (ra ++ rb))).
      { eapply okle; [exact Hw|]. pose proof (weight_nonneg (ra ++ rb)). pose proof (refines_app _ _ _ _ Ra Rb) as (_ & _ & K & _). lia. }
      assert (Pb := proj1 Sb). assert (Pa := proj1 Sa). clear Sa Sb.
      destruct Pb as [b1 u Hu|x y tx ty Hx Hy Hxy].
      - destruct Pa as [a1 t Ht|x y tx ty Hx Hy Hxy].
        + apply sub_terms; auto. intros Hp (U1 & U2 & U3 & U4). cbn [fst] in U1. destruct Hsh as [Hsh|Hsh]; [congruence|].
          destruct t as [[p|] z]; [|now destruct U1]. destruct u as [k w]. cbn [fst snd] in *. subst k w.
          destruct Hsh as [H2|[H2|[H2|H2]]].
          * apply (refines_two_left _ _ Ra) in H2. now apply one_left in H2.
          * apply (refines_two_left _ _ Rb) in H2. now apply one_left in H2.
          * destruct Rb as [Rb _]. rewrite <- Rb in H2. cbn in H2. lia.
          * apply (H2 p). destruct Ra as [Ra _], Rb as [Rb _]. rewrite <- Ra, <- Rb. cbn -[key_eqb Z.add]. rewrite key_eqb_refl. cbn. lia.
        + apply sub_sum_term; auto. now constructor.
      - apply sub_sum; auto. now constructor. }
    destruct K as (n & r & Hn & (tr & Str & Rtr)). exists r. split.
    - exists (S (max n (max n1 n2))). change (simp (S (max n (max n1 n2))) prefer (ESub a b)) with
        (visit_sub (simp (max n (max n1 n2)) prefer) a b). unfold visit_sub.
      rewrite (operands_run _ _ _ _ a' b'); [apply Hn; lia| |]; eapply yields_ge; eauto; lia.
    - exists tr. split; auto. eapply refines_trans; [exact Rtr|]. apply refines_app; [exact Ra|]. now apply refines_scale.
  Qed.

  Lemma yields_neg a a' ta : yields prefer a a' -> res false a' ta -> ok (weight ta) ->
    exists r, yields prefer (ENeg a) r /\ res false r (scale (-1) ta).
  Proof.
    intros (n & Y) (tr & Sa & Ra) Hw.
    destruct (plain_neg lit ok IL false prefer a' tr eq_refl (proj1 Sa)) as (r & (m & Ym) & (tr' & S' & R')).
    { eapply okle; [exact Hw|]. pose proof (weight_nonneg tr). destruct Ra as (_ & _ & K & _). lia. }
    exists r. split.
    - exists (S (max n m)). change (simp (S (max n m)) prefer (ENeg a)) with
        (visit_neg (simp (max n m) prefer) a). unfold visit_neg.
      rewrite (yields_ge prefer _ _ n (max n m) Y), bind_ok by lia.
      now rewrite (yields_ge prefer _ _ m (max n m) Ym) by lia.
    - exists tr'. split; auto. eapply refines_trans; [exact R'|]. now apply refines_scale.
  Qed.

  (** ** Polynomials *)
  Theorem poly_yields post e ts : poly prefer post e ts -> ok (weight ts) -> exists r, yields prefer e r /\ res post r ts.
  Proof.
    intros H. induction H as [post e t Ht|e ts He IHe|post a b ta tb Ha IHa Hb IHb Hap|post a b ta tb Ha IHa Hb IHb Hap Hsh|a ta Ha IHa|c z a ta Hc Z0 Hz Hm Ha IHa]; intros Hw.
    - now apply (term_yields lit ok IL).
    - destruct (IHe Hw) as (r & Y & R). exists r. split; auto using res_post.
    - rewrite weight_app in Hw. pose proof (weight_nonneg ta). pose proof (weight_nonneg tb).
      destruct IHa as (a' & Ya & Ra); [eapply okle; [exact Hw|lia]|].
      destruct IHb as (b' & Yb & Rb); [eapply okle; [exact Hw|lia]|].
      eapply (yields_add lit ok IL); eauto. now rewrite weight_app.
    - rewrite weight_app, weight_neg in Hw. pose proof (weight_nonneg ta). pose proof (weight_nonneg tb).
      destruct IHa as (a' & Ya & Ra); [eapply okle; [exact Hw|lia]|].
      destruct IHb as (b' & Yb & Rb); [eapply okle; [exact Hw|lia]|].
      eapply yields_sub; eauto. now rewrite weight_app.
    - rewrite weight_neg in Hw. destruct (IHa Hw) as (a' & Ya & Ra). eapply yields_neg; eauto.
    - rewrite weight_scale in Hw. pose proof (weight_nonneg ta).
      assert (Hw' : ok (weight ta)) by (eapply okle; [exact Hw|]; rewrite !Z.abs_mul, Z.abs_involutive; nia).
      destruct (IHa Hw') as (a' & Ya & Ra). eapply (yields_scale lit ok IL); eauto. repeat split; auto.
  Qed.

  Theorem poly_combined post e ts : poly prefer post e ts -> ok (weight ts) -> two_left ts ->
    exists l r, yields prefer e r /\ build OAdd l = Some r /\ combined lit l ts /\ yields prefer r r.
  Proof.
    intros He Hw H2. destruct (poly_yields post e ts He Hw) as (r & Yr & (tr & (_ & St) & Rt)).
    destruct St as (l & Hb & Hl & Hd); [now apply (refines_two_left _ _ Rt)|].
    exists l, r. split; [exact Yr|]. split; [exact Hb|]. split; [exists tr; split; [exact Hl|split; [exact Hd|apply Rt]]|].
    destruct (combined_yields lit ok IL post prefer _ l r tr (build_balanced _ _ _ Hb) Hl Hd) as (r' & Y' & C').
    - eapply okle; [exact Hw|]. pose proof (weight_nonneg tr). destruct Rt as (_ & _ & K & _). lia.
    - destruct l as [|x [|y l]]; try discriminate Hb. change (build OAdd (x :: y :: l) = Some r') in C'. congruence.
  Qed.

  (* the result of any integer polynomial, with what its value needs *)
  Theorem poly_plain post e ts : poly prefer post e ts -> ok (weight ts) ->
    exists r tr, yields prefer e r /\ plain post r tr /\ (forall k, total k tr = total k ts) /\
      (forall p, In (Some p) (keys tr) -> In (Some p) (keys ts)).
  Proof.
    intros He Hw. destruct (poly_yields post e ts He Hw) as (r & Yr & (tr & (Pr & _) & (Tr & Kr & _))). exists r, tr. auto.
  Qed.
End Polys.
