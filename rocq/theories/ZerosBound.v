(** The integer search of FindZeros stays within [long long] when the
    coefficients are not too large. *)
From Coq Require Import Bool Arith ZArith Znumtheory Lia List.
From Verif Require Import Base Num Expr Simplify FindZeros ZerosProofs.
Import ListNotations.
Open Scope Z_scope.

Definition weight (l : list Z) : Z := fold_right (fun z w => Z.abs z + w) 0 l.
Fixpoint fact_z (n : nat) : Z := match n with O => 1 | S m => Z.of_nat n * fact_z m end.
(** The bound: with A = |a0|, the sum of the magnitudes of the coefficients,
    times the factorial of their number, times A to their number. *)
Definition roomy (A : Z) (l : list Z) : Prop :=
  weight l * fact_z (length l) * A ^ Z.of_nat (length l) <= ll_max.

Lemma weight_nonneg l : 0 <= weight l.
Proof. induction l as [|z l IH]; cbn [weight fold_right]; [lia|]. unfold weight in IH. lia. Qed.
Lemma weight_cons z l : weight (z :: l) = Z.abs z + weight l.
Proof. reflexivity. Qed.
Lemma weight_app l m : weight (l ++ m) = weight l + weight m.
Proof. induction l as [|z l IH]; cbn [app]; [reflexivity|]. rewrite !weight_cons, IH. ring. Qed.
Lemma weight_repeat k : weight (repeat 0 k) = 0.
Proof. induction k as [|k IH]; [reflexivity|]. cbn [repeat]. now rewrite weight_cons, IH. Qed.
Lemma fact_pos n : 1 <= fact_z n.
Proof. induction n as [|n IH]; [cbn; lia|]. cbn [fact_z]. nia. Qed.
Lemma fact_mono n m : (n <= m)%nat -> fact_z n <= fact_z m.
Proof. induction 1 as [|m H IH]; [lia|]. cbn [fact_z]. pose proof (fact_pos m). nia. Qed.
Lemma pow_pos A n : 1 <= A -> 1 <= A ^ Z.of_nat n.
Proof. intros H. rewrite <- (Z.pow_1_l (Z.of_nat n)) at 1 by lia. apply Z.pow_le_mono_l. lia. Qed.
Lemma weight_max B l : Forall (fun x => Z.abs x <= B) l -> weight l <= Z.of_nat (length l) * B.
Proof. induction 1 as [|x l H F IH]; [cbn; lia|]. rewrite weight_cons. cbn [length]. lia. Qed.
Lemma ll_sym : ll_min <= - ll_max.
Proof. unfold ll_min, ll_max. lia. Qed.
Lemma ll_abs z : Z.abs z <= ll_max -> ll z = ret z.
Proof. intros H. apply ll_in. pose proof ll_sym. lia. Qed.

(** ** Runs that end normally, with what they return *)
Definition post {A} (m : M A) (Q : A -> Prop) : Prop := exists a, m = ([], Ok a) /\ Q a.
Lemma post_ret {A} (a : A) (Q : A -> Prop) : Q a -> post (ret a) Q.
Proof. intros H. exists a. now split. Qed.
Lemma post_bind {A B} (m : M A) (k : A -> M B) P Q :
  post m P -> (forall a, P a -> oks m a -> post (k a) Q) -> post (bind m k) Q.
Proof.
  intros (a & -> & HP) H. destruct (H a HP eq_refl) as (b & E & HQ). exists b. split; [|exact HQ].
  unfold bind. rewrite E. reflexivity.
Qed.
Lemma post_ll z : Z.abs z <= ll_max -> post (ll z) (fun y => y = z).
Proof. intros H. rewrite ll_abs by exact H. now apply post_ret. Qed.
Lemma post_oks {A} (m : M A) Q : post m Q -> exists a, oks m a.
Proof. intros (a & -> & _). now exists a. Qed.

Lemma factors_loop_post k : forall i n, 0 < i -> 0 <= n -> i <= Z.sqrt n + 1 -> Z.sqrt n + 2 - i <= Z.of_nat k ->
  2 * (n + 1) <= ll_max -> post (factors_loop k i n) (fun _ => True).
Proof.
  induction k as [|k IH]; intros i n Hi Hn Hs Hk Hl; [lia|]. cbn [factors_loop].
  assert (B : i * i <= 2 * (n + 1)).
  { pose proof (Z.sqrt_spec n Hn) as [S1 _]. pose proof (Z.sqrt_nonneg n).
    set (s := Z.sqrt n) in *. clearbody s. assert (i * i <= (s + 1) * (s + 1)) by (apply Z.mul_le_mono_nonneg; lia).
    pose proof (Z.square_nonneg (s - 1)). lia. }
  eapply post_bind; [apply post_ll; rewrite Z.abs_eq by nia; lia|]. intros y -> _. cbn beta.
  destruct (i * i <=? n) eqn:E; [|now apply post_ret]. apply Z.leb_le in E.
  assert (S1 : i <= Z.sqrt n) by (apply Z.sqrt_le_square; lia).
  eapply post_bind; [apply IH; lia|]. intros r _ _. now apply post_ret.
Qed.
Lemma all_factors_post n : 2 * (Z.abs n + 1) <= ll_max -> post (all_factors n) (fun _ => True).
Proof.
  intros H. unfold all_factors. eapply post_bind.
  - destruct (Z.le_gt_cases 0 n) as [Hn|Hn].
    + apply factors_loop_post; pose proof (Z.sqrt_nonneg n); try lia.
    + rewrite Z.sqrt_neg by lia. cbn [Z.to_nat factors_loop]. eapply post_bind; [apply post_ll; lia|].
      intros y -> _. cbn beta. replace (1 * 1 <=? n) with false by (symmetry; apply Z.leb_gt; lia). apply post_ret. exact I.
  - intros small _ _. eapply post_bind; [apply post_ll; lia|]. intros a _ _. now apply post_ret.
Qed.

Lemma quot_le a q : 0 < q -> Z.abs (Z.quot a q) <= Z.abs a.
Proof.
  intros Hq. pose proof (Z.quot_rem a q ltac:(lia)) as E. pose proof (Z.rem_bound_abs a q ltac:(lia)) as B.
  pose proof (Z.rem_sign_mul a q ltac:(lia)) as Sg. set (k := Z.quot a q) in *. set (r := Z.rem a q) in *. clearbody k r. nia.
Qed.
(** Any candidate: the values stay below the weight times a power of A. *)
Lemma horner_post A p q : 1 <= A -> Z.abs p <= A -> 0 < q -> forall l h D e,
  0 <= D -> Z.abs h <= D * A ^ Z.of_nat e -> (D + weight l) * A ^ Z.of_nat (e + length l) <= ll_max ->
  post (horner p q h l) (fun _ => True).
Proof.
  intros HA Hp Hq. induction l as [|c l IH]; intros h D e HD Hh Hb; cbn [horner]; [now apply post_ret|].
  rewrite weight_cons in Hb. cbn [length] in Hb. rewrite Nat.add_succ_r in Hb.
  pose proof (weight_nonneg l) as Hw.
  pose proof (pow_pos A e HA) as P1. pose proof (pow_pos A (length l) HA) as P2.
  assert (E1 : A ^ Z.of_nat (S e) = A * A ^ Z.of_nat e) by (rewrite Nat2Z.inj_succ, Z.pow_succ_r; lia).
  assert (E2 : A ^ Z.of_nat (S (e + length l)) = A ^ Z.of_nat (S e) * A ^ Z.of_nat (length l))
    by (rewrite <- Z.pow_add_r by lia; f_equal; lia).
  pose proof (pow_pos A (S e) HA) as P3.
  assert (B1 : Z.abs (h * p) <= D * A ^ Z.of_nat (S e)).
  { rewrite Z.abs_mul, E1. replace (D * (A * A ^ Z.of_nat e)) with ((D * A ^ Z.of_nat e) * A) by ring.
    apply Z.mul_le_mono_nonneg; lia. }
  assert (B2 : (D + Z.abs c) * A ^ Z.of_nat (S e) <= ll_max).
  { eapply Z.le_trans; [|exact Hb]. rewrite E2. 
    transitivity ((D + (Z.abs c + weight l)) * A ^ Z.of_nat (S e)); [nia|]. 
    rewrite Z.mul_assoc. assert (0 <= (D + (Z.abs c + weight l)) * A ^ Z.of_nat (S e)) by nia. nia. }
  eapply post_bind; [apply post_ll; nia|]. intros y -> _. cbn beta.
  destruct (q =? 0) eqn:Eq; [apply Z.eqb_eq in Eq; lia|].
  destruct (Z.rem (h * p) q =? 0); cbn [negb]; [|now apply post_ret].
  assert (B3 : Z.abs (Z.quot (h * p) q + c) <= (D + Z.abs c) * A ^ Z.of_nat (S e)).
  { pose proof (quot_le (h * p) q Hq). nia. }
  eapply post_bind; [apply post_ll; lia|]. intros y -> _. cbn beta.
  eapply post_bind; [|intros; now apply post_ret].
  apply (IH _ (D + Z.abs c) (S e)); [lia|exact B3|].
  cbn [Nat.add]. replace (D + Z.abs c + weight l) with (D + (Z.abs c + weight l)) by ring. exact Hb.
Qed.

(** A root: the coefficients of the quotient are at most the weight. *)
Lemma horner_inside p q : Z.abs p <= q -> 0 < q -> forall l h new, oks (horner p q h l) new ->
  Forall (fun x => Z.abs x <= Z.abs h + weight l) new.
Proof.
  intros Hp Hq. induction l as [|c l IH]; intros h new H; cbn [horner] in H; oinv; [constructor|].
  destruct (q =? 0) eqn:Eq; oinv. destruct (Z.rem (h * p) q =? 0) eqn:Er; cbn [negb] in H; oinv; [|constructor].
  apply Z.eqb_eq in Er. pose proof (Z.quot_rem (h * p) q ltac:(lia)) as Q. rewrite Er, Z.add_0_r in Q.
  set (k := Z.quot (h * p) q) in *. clearbody k.
  assert (K : Z.abs k <= Z.abs h).
  { apply (f_equal Z.abs) in Q. rewrite !Z.abs_mul, (Z.abs_eq q) in Q by lia. nia. }
  rewrite weight_cons. pose proof (weight_nonneg l). constructor; [lia|].
  eapply Forall_impl; [|exact (IH _ _ Hr0)]. cbn. intros a Ha. lia.
Qed.
Lemma horner_outside p q : q <= Z.abs p -> 0 < q -> forall l h new, oks (horner p q h l) new ->
  length new = length l -> l <> [] -> last new 1 = 0 ->
  Z.abs h <= weight l /\ Forall (fun x => Z.abs x <= weight l) new.
Proof.
  intros Hp Hq. induction l as [|c l IH]; intros h new H L Hne Hz; [congruence|]. cbn [horner] in H. oinv.
  destruct (q =? 0) eqn:Eq; oinv. destruct (Z.rem (h * p) q =? 0) eqn:Er; cbn [negb] in H; oinv; [|discriminate L].
  apply Z.eqb_eq in Er. pose proof (Z.quot_rem (h * p) q ltac:(lia)) as Q. rewrite Er, Z.add_0_r in Q.
  set (k := Z.quot (h * p) q) in *. clearbody k.
  assert (K : Z.abs h <= Z.abs k).
  { apply (f_equal Z.abs) in Q. rewrite !Z.abs_mul, (Z.abs_eq q) in Q by lia. nia. }
  rewrite weight_cons. pose proof (weight_nonneg l). cbn [length] in L. injection L as L.
  destruct l as [|c' l].
  - destruct y0; [|discriminate L]. cbn in Hz. cbn [weight fold_right]. split; [lia|]. constructor; [lia|constructor].
  - assert (Hy : last y0 1 = 0) by (destruct y0; [discriminate L|exact Hz]).
    destruct (IH _ _ Hr0 L ltac:(discriminate) Hy) as [IH1 IH2]. split; [lia|]. constructor; [lia|].
    eapply Forall_impl; [|exact IH2]. cbn beta. intros a Ha. lia.
Qed.
Lemma horner_quotient p q l new : 0 < q -> l <> [] -> oks (horner p q 0 l) new -> length new = length l ->
  last new 1 = 0 -> Forall (fun x => Z.abs x <= weight l) new.
Proof.
  intros Hq Hne H L Hz. destruct (Z.le_gt_cases (Z.abs p) q) as [Hp|Hp].
  - exact (horner_inside p q Hp Hq _ _ _ H).
  - apply (horner_outside p q ltac:(lia) Hq _ _ _ H L Hne Hz).
Qed.

Lemma roomy_quotient A p q l new t : 1 <= A -> 0 < q -> l <> [] -> oks (horner p q 0 l) new -> length new = length l ->
  last new 1 = 0 -> oks (pop_zeros new) t -> roomy A l -> roomy A t.
Proof.
  intros HA Hq Hne H L Hz Ht HR.
  pose proof (horner_quotient _ _ _ _ Hq Hne H L Hz) as F.
  destruct (pop_zeros_spec _ _ Ht) as (k & r & x & E & _).
  destruct l as [|c l]; [congruence|].
  assert (N0 : new <> []) by (destruct new; discriminate).
  assert (Fr : Forall (fun x => Z.abs x <= weight (c :: l)) (removelast new)).
  { rewrite (app_removelast_last 1 N0) in F. now apply Forall_app in F. }
  pose proof (weight_max _ _ Fr) as W. rewrite removelast_length, L in W. cbn [length pred] in W.
  assert (Wt : weight t = weight (removelast new)) by (rewrite E, weight_app, weight_repeat; lia).
  assert (Lt : (length t <= length l)%nat).
  { apply (f_equal (@length Z)) in E. rewrite removelast_length, app_length, L in E. cbn in E. lia. }
  unfold roomy in *. eapply Z.le_trans; [|exact HR]. rewrite Wt. cbn [length fact_z].
  pose proof (weight_nonneg (removelast new)) as W0. pose proof (weight_nonneg (c :: l)) as W1.
  pose proof (fact_mono _ _ Lt) as Hf. pose proof (fact_pos (length t)) as Hf1.
  assert (Hpw : A ^ Z.of_nat (length t) <= A ^ Z.of_nat (S (length l))) by (apply Z.pow_le_mono_r; lia).
  pose proof (pow_pos A (length t) HA) as Hp1.
  apply Z.mul_le_mono_nonneg; [nia| |lia|exact Hpw].
  transitivity ((Z.of_nat (length l) * weight (c :: l)) * fact_z (length l)); [apply Z.mul_le_mono_nonneg; lia|].
  rewrite Nat2Z.inj_succ.
  replace (weight (c :: l) * (Z.succ (Z.of_nat (length l)) * fact_z (length l)))
    with ((Z.of_nat (length l) * weight (c :: l)) * fact_z (length l) + weight (c :: l) * fact_z (length l)) by ring.
  nia.
Qed.

Lemma try_root_post a A p q : a <> 0 -> 1 <= A -> Z.abs p <= A -> 0 < q -> forall k l found,
  fine a l -> roomy A l -> (length l <= k)%nat ->
  post (try_root k p q l found) (fun tf => fine a (fst tf) /\ roomy A (fst tf)).
Proof.
  intros Ha HA Hp Hq. induction k as [|k IH]; intros l found F HR Hk.
  - destruct F as (_ & F2 & _). destruct l; [congruence|simpl in Hk; lia].
  - cbn [try_root]. eapply post_bind.
    { apply (horner_post A p q HA Hp Hq l 0 0 0); [lia|lia|]. cbn [Nat.add]. rewrite Z.add_0_l.
      unfold roomy in HR. eapply Z.le_trans; [|exact HR].
      pose proof (fact_pos (length l)). pose proof (pow_pos A (length l) HA). pose proof (weight_nonneg l).
      apply Z.mul_le_mono_nonneg; nia. }
    intros new _ Hn.
    destruct (Nat.eqb (length new) (length l) && (last new 1 =? 0)) eqn:E; [|now apply post_ret].
    apply andb_true_iff in E. rewrite Nat.eqb_eq, Z.eqb_eq in E. destruct E as [L Z].
    pose proof F as (F1 & F2 & F3). destruct (horner_last _ _ _ _ _ F2 Hn L) as (_ & c & r & El & Hc).
    destruct (Hc eq_refl) as [r' En].
    assert (Hc0 : c = a) by (rewrite El in F1; exact F1). subst c.
    assert (L2 : (2 <= length new)%nat) by (rewrite En; destruct r'; [rewrite En in Z; cbn in Z; congruence|simpl; lia]).
    destruct (pop_zeros_runs new L2) as [t Ht]; [now rewrite En|]. rewrite Ht.
    assert (Hto : oks (pop_zeros new) t) by (unfold oks; now rewrite Ht).
    destruct (fine_after _ _ _ _ _ _ F Hn L Hto) as (Ft & Lt & _).
    assert (Rt : roomy A t) by (eapply (roomy_quotient A p q l new t); eauto).
    eapply post_bind; [exists t; split; [reflexivity|exact (eq_refl t)]|]. intros t' <- _.
    destruct (length t <=? 1)%nat; [now apply post_ret|]. apply IH; [exact Ft|exact Rt|lia].
Qed.

Section Search.
  Context {num : Type} {N : NumOps num}.
  Variables an A : Z.
  Hypothesis Han : an <> 0.
  Hypothesis HA : 1 <= A.
  Hypothesis Hl : 2 * (Z.abs an + 1) <= ll_max.
  Hypothesis HAl : A <= ll_max.
  Definition J (s : list Z * list (expr num)) : Prop := fine an (fst s) /\ roomy A (fst s).

  Lemma try_sign_post sg p q s : J s -> 0 < q -> 0 < p <= A -> sg = -1 \/ sg = 1 -> post (try_sign sg p q s) J.
  Proof.
    intros [F R] Hq Hp Hs. destruct s as [l res]. cbn [fst] in *. unfold try_sign.
    eapply post_bind; [apply post_ll; lia|]. intros y -> _. cbn beta.
    eapply post_bind; [apply (try_root_post an A); auto; lia|]. intros [t f] Hj _. now apply post_ret.
  Qed.
  Lemma try_qs_post p qs : 0 < p <= A -> forall s, J s -> (forall q, In q qs -> 0 < q) -> post (try_qs p qs s) J.
  Proof.
    intros Hp. induction qs as [|q qs IH]; intros s Hj Hq; cbn [try_qs]; [now apply post_ret|].
    assert (Hq0 : 0 < q) by (apply Hq; now left).
    rewrite gcf_spec by lia. eapply post_bind; [apply (post_ret _ (fun _ => True)); exact I|]. intros g _ _.
    eapply (post_bind _ _ J).
    - destruct (g =? 1); [|now apply post_ret]. eapply post_bind; [apply try_sign_post; auto|].
      intros s1 H1 _. apply try_sign_post; auto.
    - intros s1 H1 _. destruct (short s1); [now apply post_ret|]. apply IH; [exact H1|]. intros; apply Hq; now right.
  Qed.
  Lemma try_ps_post ps : (forall p, In p ps -> 0 < p <= A) -> forall s, J s -> post (try_ps ps s) J.
  Proof.
    induction ps as [|p ps IH]; intros Hp s Hj; cbn [try_ps]; [now apply post_ret|].
    destruct Hj as [F R]. pose proof F as (F1 & F2 & _). destruct s as [l res]. cbn [fst] in *.
    destruct l as [|front l]; [congruence|]. cbn [hd] in F1. subst front.
    eapply post_bind; [now apply all_factors_post|]. intros qs _ Hqs.
    eapply (post_bind _ _ J).
    - apply try_qs_post; [apply Hp; now left|now split|]. intros q Hq. now apply (all_factors_pos _ _ Han Hqs).
    - intros s1 H1 _. destruct (short s1); [now apply post_ret|]. apply IH; [|exact H1]. intros; apply Hp; now right.
  Qed.
End Search.

Lemma last_in (l : list Z) d : l <> [] -> exists r, l = r ++ [last l d].
Proof. intros H. exists (removelast l). now apply app_removelast_last. Qed.

(** The whole search. *)
Lemma rational_roots_post {num} {N : NumOps num} (l : list Z) : (2 <= length l)%nat ->
  hd 0 l <> 0 -> last l 0 <> 0 -> roomy (Z.abs (last l 0)) l ->
  post (rational_roots (num := num) l) (fun _ => True).
Proof.
  intros L Hh Hla HR.
  assert (Ne : l <> []) by (destruct l; [simpl in L; lia|discriminate]).
  set (A := Z.abs (last l 0)) in *. assert (HA : 1 <= A) by (unfold A; lia).
  assert (W : Z.abs (hd 0 l) + A <= weight l).
  { destruct l as [|c [|d l]]; [congruence|simpl in L; lia|]. rewrite weight_cons. cbn [hd].
    assert (Nd : d :: l <> []) by discriminate.
    destruct (last_in (d :: l) 0 Nd) as [r Er]. assert (El : last (c :: d :: l) 0 = last (d :: l) 0) by reflexivity.
    subst A. rewrite El in *. rewrite Er at 2. rewrite weight_app, weight_cons. pose proof (weight_nonneg r). cbn. lia. }
  assert (W2 : 2 * weight l <= ll_max).
  { unfold roomy in HR. eapply Z.le_trans; [|exact HR].
    assert (F2 : 2 <= fact_z (length l)) by (apply (fact_mono 2 (length l)); exact L).
    pose proof (pow_pos A (length l) HA). pose proof (weight_nonneg l).
    transitivity (weight l * fact_z (length l)); nia. }
  unfold rational_roots. eapply post_bind; [apply all_factors_post; fold A; lia|]. intros ps _ Hps.
  assert (Hp : forall p, In p ps -> 0 < p <= A).
  { intros p Hp. pose proof (all_factors_le _ _ Hps _ Hp). destruct (all_factors_pos _ _ Hla Hps _ Hp). unfold A. lia. }
  destruct (try_ps_post (hd 0 l) A Hh HA ltac:(lia) ltac:(lia) ps Hp (l, [])) as (r & Hr & _).
  { split; [|exact HR]. cbn [fst]. repeat split; auto. }
  exists r. now split.
Qed.
