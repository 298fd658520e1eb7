(** Integer arithmetic of FindZeros: divisors, greatest common divisors, and
    division of a polynomial by x - p/q. *)
From Coq Require Import String Bool Arith ZArith Znumtheory Reals Lra Lia List.
From Verif Require Import Base Num Expr Simplify FindZeros.
Import ListNotations.
Open Scope Z_scope.

(** ** Runs that end normally *)
Definition oks {A} (m : M A) (a : A) : Prop := snd m = Ok a.

Lemma oks_ret {A} (a b : A) : oks (ret a) b <-> a = b.
Proof. unfold oks, ret. simpl. split; congruence. Qed.
Lemma oks_bind {A B} (m : M A) (k : A -> M B) b :
  oks (bind m k) b <-> exists a, oks m a /\ oks (k a) b.
Proof.
  unfold oks, bind. destruct m as [t [a|s|x| |u|]]; simpl; split;
    try (intros H; discriminate H); try (intros (a' & H & _); discriminate H).
  - intros H. eauto.
  - intros (a' & H & Hk). now injection H as ->.
Qed.
Lemma oks_value {A} (m : M A) a : oks (m_value m) a <-> oks m a.
Proof. unfold oks, m_value. destruct m as [t [b|s|y| |u|]]; simpl; split; intros H; try discriminate; exact H. Qed.
Lemma oks_ll z y : oks (ll z) y <-> z = y /\ ll_min <= z <= ll_max.
Proof.
  unfold ll. destruct ((ll_min <=? z) && (z <=? ll_max)) eqn:E.
  - rewrite oks_ret. apply andb_true_iff in E. rewrite !Z.leb_le in E. tauto.
  - split; [discriminate|]. intros [_ H]. apply andb_false_iff in E. rewrite !Z.leb_gt in E. lia.
Qed.
Lemma ll_eq z : ll z = ret z \/ ll z = undef IntOverflow.
Proof. unfold ll. destruct (_ && _); auto. Qed.
Lemma ll_in z : ll_min <= z <= ll_max -> ll z = ret z.
Proof. intros H. unfold ll. replace ((ll_min <=? z) && (z <=? ll_max)) with true; auto.
  symmetry. apply andb_true_iff. rewrite !Z.leb_le. lia. Qed.
Lemma oks_undef {A} u (a : A) : ~ oks (undef u) a.
Proof. discriminate. Qed.
Lemma oks_oof {A} (a : A) : ~ oks oof a.
Proof. discriminate. Qed.
Ltac oinv1 :=
  match goal with
  | H : oks (ret _) _ |- _ => apply (proj1 (oks_ret _ _)) in H
  | H : oks (bind _ _) _ |- _ =>
    let a := fresh "y" in let H1 := fresh "Hr" in
    apply (proj1 (oks_bind _ _ _)) in H; destruct H as (a & H1 & H)
  | H : oks (m_value _) _ |- _ => apply (proj1 (oks_value _ _)) in H
  | H : oks (undef _) _ |- _ => destruct (oks_undef _ _ H)
  | H : oks oof _ |- _ => destruct (oks_oof _ H)
  | H : oks (ll _) _ |- _ =>
    apply (proj1 (oks_ll _ _)) in H; let E := fresh "E" in let B := fresh "B" in destruct H as [E B]
  end.
Ltac oinv := repeat (oinv1; cbv beta in *); subst.

(** ** getAllFactors *)
Lemma factors_loop_spec k : forall i n l, 0 < i -> oks (factors_loop k i n) l ->
  forall d, In d l <-> (i <= d /\ d * d <= n /\ (d | n)).
Proof.
  induction k as [|k IH]; cbn [factors_loop]; intros i n l Hi H d; oinv.
  destruct (i * i <=? n) eqn:E; oinv.
  - apply Z.leb_le in E. pose proof (IH (i + 1) n y ltac:(lia) Hr d) as Hd.
    assert (D : (i | n) <-> Z.rem n i = 0) by (rewrite Z.rem_divide by lia; tauto).
    destruct (Z.rem n i =? 0) eqn:R.
    + apply Z.eqb_eq in R. cbn [In]. rewrite Hd. split.
      * intros [<-|K]; [split; [lia|tauto]|split; [lia|tauto]].
      * intros (A & B' & C). destruct (Z.eq_dec i d); [now left|right; split; [lia|tauto]].
    + apply Z.eqb_neq in R. rewrite Hd. split.
      * intros K; split; [lia|tauto].
      * intros (A & B' & C). split; [|tauto]. destruct (Z.eq_dec i d) as [->|]; [tauto|lia].
  - apply Z.leb_gt in E. cbn [In]. split; [tauto|]. intros (A & B' & _). nia.
Qed.

Lemma factors_loop_fuel k : forall i n, 0 < i -> (i <= Z.sqrt n + 1 -> Z.sqrt n + 2 - i <= Z.of_nat k) -> (0 < k)%nat ->
  (exists l, factors_loop k i n = ([], Ok l)) \/ factors_loop k i n = ([], Undef IntOverflow).
Proof.
  induction k as [|k IH]; intros i n Hi Hk H0; [lia|]. cbn [factors_loop].
  destruct (ll_eq (i * i)) as [->| ->]; [|now right]. cbn.
  destruct (i * i <=? n) eqn:E; [|left; eexists; reflexivity].
  apply Z.leb_le in E.
  assert (S1 : i <= Z.sqrt n) by (apply Z.sqrt_le_square; lia).
  destruct (IH (i + 1) n) as [[l ->]| ->]; [lia|lia|lia| |].
  - left. cbn. eexists; reflexivity.
  - now right.
Qed.

Lemma all_factors_spec n l : oks (all_factors n) l ->
  forall d, In d l <-> (1 <= d /\ d * d <= n /\ (d | n)) \/ (d = Z.abs n /\ Z.abs n <> 1).
Proof.
  unfold all_factors. intros H d. oinv. pose proof (factors_loop_spec _ 1 n y ltac:(lia) Hr d) as F.
  destruct (Z.abs n =? 1) eqn:E.
  - apply Z.eqb_eq in E. rewrite F. intuition lia.
  - apply Z.eqb_neq in E. rewrite in_app_iff, F. cbn [In]. intuition lia.
Qed.

Lemma all_factors_runs n :
  (exists l, all_factors n = ([], Ok l)) \/ all_factors n = ([], Undef IntOverflow).
Proof.
  unfold all_factors.
  destruct (factors_loop_fuel (S (Z.to_nat (Z.sqrt n))) 1 n) as [[l ->]| ->];
    [lia|pose proof (Z.sqrt_nonneg n); lia|lia| |now right].
  cbn. destruct (ll_eq (Z.abs n)) as [->| ->]; [|now right]. left. cbn. eexists; reflexivity.
Qed.

Lemma all_factors_pos n l : n <> 0 -> oks (all_factors n) l -> forall d, In d l -> 0 < d /\ (d | n).
Proof.
  intros Hn H d Hd. apply (all_factors_spec _ _ H) in Hd. destruct Hd as [(A & B & C)|[-> E]].
  - split; [lia|exact C].
  - split; [lia|]. apply Z.divide_abs_l, Z.divide_refl.
Qed.

Lemma all_factors_le n l : oks (all_factors n) l -> forall d, In d l -> Z.abs d <= Z.abs n.
Proof.
  intros H d Hd. apply (all_factors_spec _ _ H) in Hd. destruct Hd as [(A & B & _)|[-> _]]; [nia|lia].
Qed.

(** ** gcf *)
Lemma gcf_loop_spec k : forall a b, 0 <= a -> 0 < b -> b <= Z.of_nat k ->
  gcf_loop k a b = ret (Z.gcd a b).
Proof.
  induction k as [|k IH]; intros a b Ha Hb Hk; [lia|]. cbn [gcf_loop].
  destruct (b =? 0) eqn:E; [apply Z.eqb_eq in E; lia|].
  rewrite Z.rem_mod_nonneg by lia.
  pose proof (Z.mod_pos_bound a b Hb) as Bm.
  destruct (a mod b =? 0) eqn:E1.
  - apply Z.eqb_eq in E1. rewrite Z.gcd_comm, <- Z.gcd_mod by lia. rewrite E1, Z.gcd_0_l, Z.abs_eq by lia. reflexivity.
  - apply Z.eqb_neq in E1. rewrite Z.rem_mod_nonneg by lia.
    pose proof (Z.mod_pos_bound b (a mod b) ltac:(lia)) as Bm2.
    assert (G : Z.gcd a b = Z.gcd (b mod (a mod b)) (a mod b)).
    { rewrite Z.gcd_mod by lia. rewrite Z.gcd_mod by lia. apply Z.gcd_comm. }
    destruct (b mod (a mod b) =? 0) eqn:E2.
    + apply Z.eqb_eq in E2. rewrite G, E2, Z.gcd_0_l, Z.abs_eq by lia. reflexivity.
    + apply Z.eqb_neq in E2. rewrite IH by lia. rewrite G. f_equal. apply Z.gcd_comm.
Qed.

Lemma gcf_spec a b : 0 < a -> 0 < b -> gcf a b = ret (Z.gcd a b).
Proof.
  intros Ha Hb. unfold gcf. destruct (b >? a) eqn:E.
  - rewrite gcf_loop_spec; [|lia|lia|lia]. now rewrite Z.gcd_comm.
  - rewrite gcf_loop_spec; [reflexivity|lia|lia|lia].
Qed.

(** ** Division by x - p/q.  Coefficients are listed from the highest power. *)
Open Scope R_scope.

Definition pe (A : R) (l : list Z) (v : R) : R := fold_left (fun a c => a * v + IZR c) l A.

Lemma pe_app A l m v : pe A (l ++ m) v = pe (pe A l v) m v.
Proof. apply fold_left_app. Qed.
Lemma pe_zeros A k v : pe A (repeat 0%Z k) v = A * v ^ k.
Proof.
  revert A; induction k as [|k IH]; intros A; simpl; [ring|].
  change (fold_left (fun a c => a * v + IZR c) (repeat 0%Z k) (A * v + 0)) with (pe (A * v + 0) (repeat 0%Z k) v).
  rewrite IH. ring.
Qed.

Lemma quot_exact h q : (q <> 0)%Z -> Z.rem h q = 0%Z -> IZR (Z.quot h q) = IZR h / IZR q.
Proof.
  intros Hq H. pose proof (Z.quot_rem h q Hq) as E. rewrite H, Z.add_0_r in E.
  rewrite E at 2. rewrite mult_IZR. field. now apply not_0_IZR.
Qed.

Lemma horner_spec p q : forall l h new, oks (horner p q h l) new -> length new = length l ->
  forall v Q, pe ((v - IZR p / IZR q) * Q + IZR h) l v
    = (v - IZR p / IZR q) * pe Q (removelast (h :: new)) v + IZR (last (h :: new) 0%Z).
Proof.
  induction l as [|c l IH]; intros h new H L v Q.
  - destruct new; [|discriminate]. reflexivity.
  - cbn [horner] in H. oinv. destruct (q =? 0)%Z eqn:Eq; oinv. apply Z.eqb_neq in Eq.
    destruct (Z.rem (h * p) q =? 0)%Z eqn:Er; cbn [negb] in H; oinv; [|discriminate L].
    apply Z.eqb_eq in Er. cbn [length] in L. injection L as L.
    change (removelast (h :: (Z.quot (h * p) q + c)%Z :: y0)) with (h :: removelast ((Z.quot (h * p) q + c)%Z :: y0)).
    change (last (h :: (Z.quot (h * p) q + c)%Z :: y0) 0%Z) with (last ((Z.quot (h * p) q + c)%Z :: y0) 0%Z).
    pose proof (IH _ _ Hr0 L v (Q * v + IZR h)) as E. cbn [pe fold_left] in *.
    change (fold_left (fun a c => a * v + IZR c) ?l ?A) with (pe A l v) in *.
    rewrite <- E. f_equal. rewrite plus_IZR, quot_exact, mult_IZR by assumption.
    assert (IZR q <> 0) by now apply not_0_IZR. field. assumption.
Qed.

(* homogenised evaluation at p/q *)
Fixpoint hom (p q : Z) (A s : Z) (l : list Z) : Z :=
  match l with
  | [] => A
  | c :: l => hom p q (A * p + c * s * q) (s * q) l
  end%Z.
Lemma hom_pe p q l : (q <> 0)%Z -> forall A s, (s <> 0)%Z ->
  IZR (hom p q A s l) = IZR s * IZR q ^ length l * pe (IZR A / IZR s) l (IZR p / IZR q).
Proof.
  intros Hq. assert (IZR q <> 0) by now apply not_0_IZR.
  induction l as [|c l IH]; intros A s Hs; assert (IZR s <> 0) by now apply not_0_IZR.
  - simpl. field. assumption.
  - cbn [hom]. rewrite IH by lia. cbn [pe fold_left length pow].
    change (fold_left (fun a c => a * ?v + IZR c) ?l ?A) with (pe A l v).
    rewrite !plus_IZR, !mult_IZR.
    replace ((IZR A * IZR p + IZR c * IZR s * IZR q) / (IZR s * IZR q)) with (IZR A / IZR s * (IZR p / IZR q) + IZR c)
      by (field; auto). ring.
Qed.
Lemma hom_mod p q l : forall A s, exists k, (hom p q A s l = A * p ^ Z.of_nat (length l) + q * k)%Z.
Proof.
  induction l as [|c l IH]; intros A s.
  - exists 0%Z. simpl. ring.
  - cbn [hom length]. destruct (IH (A * p + c * s * q)%Z (s * q)%Z) as [k ->].
    exists (c * s * p ^ Z.of_nat (length l) + k)%Z. rewrite Nat2Z.inj_succ, Z.pow_succ_r by lia. ring.
Qed.

Lemma rel_prime_pow p q n : rel_prime p q -> (0 <= n)%Z -> rel_prime (p ^ n) q.
Proof.
  intros H Hn. revert n Hn. apply (natlike_ind (fun n => rel_prime (p ^ n) q)).
  - rewrite Z.pow_0_r. apply rel_prime_1.
  - intros n Hn IH. rewrite Z.pow_succ_r by assumption. apply rel_prime_sym, rel_prime_mult; now apply rel_prime_sym.
Qed.

(* at a root p/q in lowest terms the divisions never leave a remainder *)
Lemma horner_divides p q c l h : rel_prime p q -> (q <> 0)%Z ->
  pe (IZR h) (c :: l) (IZR p / IZR q) = 0 -> (q | h)%Z.
Proof.
  intros Hp Hq H. pose proof (hom_pe p q (c :: l) Hq h 1 ltac:(lia)) as E.
  replace (IZR h / 1) with (IZR h) in E by field. rewrite H, Rmult_0_r in E. apply eq_IZR in E.
  destruct (hom_mod p q (c :: l) h 1) as [k Hk]. rewrite E in Hk.
  apply (Gauss q (p ^ Z.of_nat (length (c :: l))) h).
  - exists (- k)%Z. lia.
  - apply rel_prime_sym, rel_prime_pow; [assumption|lia].
Qed.

Lemma horner_root p q : rel_prime p q -> (q <> 0)%Z ->
  forall l h new, oks (horner p q h l) new -> pe (IZR h) l (IZR p / IZR q) = 0 ->
  length new = length l /\ (l <> [] -> last new 1%Z = 0%Z).
Proof.
  intros Hp Hq. induction l as [|c l IH]; intros h new H R.
  - cbn [horner] in H. oinv. split; [reflexivity|congruence].
  - pose proof (horner_divides _ _ _ _ _ Hp Hq R) as D.
    cbn [horner] in H. oinv. destruct (q =? 0)%Z eqn:Eq; oinv.
    assert (Er : Z.rem (h * p) q = 0%Z).
    { apply Z.rem_divide; [assumption|]. apply Z.divide_mul_l, D. }
    rewrite Er in H. cbn [Z.eqb negb] in H. oinv.
    assert (E : IZR (Z.quot (h * p) q + c) = IZR h * (IZR p / IZR q) + IZR c).
    { rewrite plus_IZR, quot_exact, mult_IZR by assumption. field. now apply not_0_IZR. }
    cbn [pe fold_left] in R.
    change (fold_left (fun a c => a * ?v + IZR c) ?l ?A) with (pe A l v) in R. rewrite <- E in R.
    destruct (IH _ _ Hr0 R) as [L K]. split; [cbn; congruence|]. intros _.
    destruct l as [|c' l].
    + destruct y0; [|discriminate L]. cbn [last]. cbn [pe fold_left] in R. now apply eq_IZR.
    + destruct y0 as [|z y0]; [discriminate L|]. change (last (z :: y0) 1%Z = 0%Z). apply K. discriminate.
Qed.

Lemma horner_last p q l h new : l <> [] -> oks (horner p q h l) new -> length new = length l ->
  (q <> 0)%Z /\ exists c r, l = c :: r /\ (h = 0%Z -> exists r', new = c :: r').
Proof.
  intros Hl H L. destruct l as [|c l]; [congruence|]. cbn [horner] in H. oinv.
  destruct (q =? 0)%Z eqn:Eq; oinv. apply Z.eqb_neq in Eq. split; [assumption|].
  destruct (Z.rem (h * p) q =? 0)%Z; cbn [negb] in H; oinv; [|discriminate L].
  exists c, l. split; [reflexivity|]. intros ->. cbn [Z.mul]. rewrite Z.quot_0_l by assumption. eauto.
Qed.

Lemma pop_zeros_rev_spec l : forall t, oks (pop_zeros_rev l) t ->
  exists k x r, l = repeat 0%Z k ++ t /\ t = x :: r /\ x <> 0%Z.
Proof.
  induction l as [|x l IH]; cbn [pop_zeros_rev]; intros t H; oinv.
  destruct (x =? 0)%Z eqn:E; oinv.
  - apply Z.eqb_eq in E. subst. destruct (IH _ H) as (k & z & r & -> & -> & Hz).
    exists (S k), z, r. repeat split; auto.
  - apply Z.eqb_neq in E. exists 0%nat, x, l. repeat split; auto.
Qed.
Lemma rev_repeat {A} (a : A) k : rev (repeat a k) = repeat a k.
Proof.
  induction k as [|k IH]; [reflexivity|]. cbn [repeat rev]. rewrite IH.
  clear. induction k as [|k IH]; [reflexivity|]. cbn. now rewrite IH.
Qed.
Lemma pop_zeros_spec l t : oks (pop_zeros l) t ->
  exists k r x, removelast l = t ++ repeat 0%Z k /\ t = r ++ [x] /\ x <> 0%Z.
Proof.
  unfold pop_zeros. intros H. destruct (rev l) as [|z m] eqn:E; [discriminate|]. oinv.
  apply pop_zeros_rev_spec in Hr. destruct Hr as (k & x & r & -> & -> & Hx).
  exists k, (rev r), x. split; [|split; [reflexivity|exact Hx]].
  rewrite <- (rev_involutive l), E. cbn [rev]. rewrite removelast_last.
  rewrite rev_app_distr, rev_repeat. reflexivity.
Qed.

Lemma pop_zeros_runs l : (2 <= length l)%nat -> hd 0%Z l <> 0%Z ->
  exists t, pop_zeros l = ([], Ok t).
Proof.
  intros Hl Hh. unfold pop_zeros. destruct l as [|c l]; [simpl in Hl; lia|]. cbn [hd] in Hh. cbn [rev].
  assert (Hr : (1 <= length (rev l))%nat) by (rewrite rev_length; simpl in Hl; lia).
  destruct (rev l) as [|z m]; [simpl in Hr; lia|]. cbn [app].
  assert (K : exists t, pop_zeros_rev (m ++ [c]) = ([], Ok t)).
  { clear - Hh. induction m as [|x m IH]; cbn [app pop_zeros_rev].
    - destruct (c =? 0)%Z eqn:E; [apply Z.eqb_eq in E; congruence|]. eexists; reflexivity.
    - destruct (x =? 0)%Z; [exact IH|eexists; reflexivity]. }
  destruct K as [t ->]. eexists; reflexivity.
Qed.

Lemma removelast_length {A} (l : list A) : length (removelast l) = pred (length l).
Proof.
  induction l as [|x [|y l] IH]; [reflexivity|reflexivity|].
  change (removelast (x :: y :: l)) with (x :: removelast (y :: l)). cbn [length] in *. rewrite IH. reflexivity.
Qed.

Lemma last_default {A} (l : list A) a b : l <> [] -> last l a = last l b.
Proof.
  induction l as [|x [|y l] IH]; [congruence|reflexivity|]. intros _.
  change (last (y :: l) a = last (y :: l) b). apply IH. discriminate.
Qed.

(** ** One candidate *)
Definition fine (a : Z) (l : list Z) : Prop :=
  hd 0%Z l = a /\ l <> [] /\ ((length l <= 1)%nat -> a <> 0%Z).

Lemma fine_after a l p q new t : fine a l -> oks (horner p q 0 l) new -> length new = length l ->
  oks (pop_zeros new) t ->
  fine a t /\ (length t < length l)%nat /\
  (last new 1%Z = 0%Z -> exists k, forall v, pe 0 l v = ((v - IZR p / IZR q) * v ^ k) * pe 0 t v).
Proof.
  intros (F1 & F2 & F3) H L Ht.
  destruct (horner_last _ _ _ _ _ F2 H L) as (Hq & c & r & -> & Hn). destruct (Hn eq_refl) as [r' ->]. clear Hn.
  destruct (pop_zeros_spec _ _ Ht) as (k & rr & x & E & -> & Hx).
  assert (Len : (length (rr ++ [x]) + k = length r)%nat).
  { apply (f_equal (@length Z)) in E. rewrite app_length, repeat_length in E.
    rewrite removelast_length in E. simpl in L, E.
    lia. }
  assert (Hd : hd 0%Z (rr ++ [x]) = c).
  { destruct r' as [|z r']; [apply (f_equal (@length Z)) in E; rewrite !app_length in E; simpl in E; lia|].
    cbn [removelast] in E. destruct rr as [|y rr]; cbn [app] in *; injection E as <- _; reflexivity. }
  assert (T : rr ++ [x] <> []) by (destruct rr; discriminate).
  split; [|split].
  - unfold fine. cbn [hd] in F1. rewrite Hd. repeat split; auto. intros Hl.
    destruct rr as [|y [|? ?]]; [cbn in Hd; congruence|cbn in Hl; lia|cbn in Hl; lia].
  - simpl. lia.
  - intros Hz. exists k. intros v.
    pose proof (horner_spec _ _ _ _ _ H L v 0) as S0.
    replace ((v - IZR p / IZR q) * 0 + 0) with 0 in S0 by ring. rewrite S0.
    change (removelast (0%Z :: c :: r')) with (0%Z :: removelast (c :: r')).
    change (last (0%Z :: c :: r') 0%Z) with (last (c :: r') 0%Z).
    assert (Z : last (c :: r') 0%Z = 0%Z).
    { rewrite (last_default _ 0%Z 1%Z) by discriminate. exact Hz. }
    rewrite Z, E. cbn [pe fold_left]. change (fold_left (fun a c => a * v + IZR c) ?l ?A) with (pe A l v).
    rewrite pe_app, pe_zeros. replace (0 * v + 0) with 0 by ring. ring.
Qed.

Lemma try_root_spec a p q k : forall l found t f, fine a l -> oks (try_root k p q l found) (t, f) ->
  fine a t /\ (length t <= length l)%nat /\
  (exists G, (forall v, pe 0 l v = G v * pe 0 t v) /\
             (forall v, v <> IZR p / IZR q -> v <> 0 -> G v <> 0)) /\
  (f = true -> found = true \/ ((q <> 0)%Z /\ pe 0 l (IZR p / IZR q) = 0)) /\
  (found = true -> f = true) /\ (f = false -> t = l) /\
  (rel_prime p q -> (q <> 0)%Z -> pe 0 l (IZR p / IZR q) = 0 -> f = true).
Proof.
  induction k as [|k IH]; cbn [try_root]; intros l found t f F H; oinv. 
  pose proof F as (F1 & F2 & F3).
  destruct (Nat.eqb (length y) (length l) && (last y 1 =? 0)%Z) eqn:E.
  - apply andb_true_iff in E. rewrite Nat.eqb_eq, Z.eqb_eq in E. destruct E as [L Z]. oinv.
    destruct (fine_after _ _ _ _ _ _ F Hr L Hr0) as (Ft & Lt & K). destruct (K Z) as [e He]. clear K.
    destruct (horner_last _ _ _ _ _ F2 Hr L) as (Hq & _).
    assert (R : pe 0 l (IZR p / IZR q) = 0) by (rewrite He; ring).
    assert (Hg : forall v, v <> IZR p / IZR q -> v <> 0 -> (v - IZR p / IZR q) * v ^ e <> 0).
    { intros v V1 V2 V. apply Rmult_integral in V. destruct V as [V|V]; [lra|]. revert V. now apply pow_nonzero. }
    destruct (length y0 <=? 1)%nat.
    + oinv. injection H as <- <-.
      split; [exact Ft|]. split; [lia|]. split; [exists (fun v => (v - IZR p / IZR q) * v ^ e); split; assumption|].
      split; [intros _; right; split; assumption|]. split; [auto|]. split; [discriminate|]. auto.
    + destruct (IH _ _ _ _ Ft H) as (A1 & A2 & (G & G1 & G2) & A4 & A5 & A6 & A7).
      split; [exact A1|]. split; [lia|]. split.
      { exists (fun v => ((v - IZR p / IZR q) * v ^ e) * G v). split.
        - intros v. rewrite He, G1. ring.
        - intros v V1 V2 V. apply Rmult_integral in V. destruct V as [V|V]; [now apply (Hg v)|now apply (G2 v)]. }
      split; [intros _; right; split; assumption|]. rewrite (A5 eq_refl). split; [auto|]. split; [discriminate|]. auto.
  - oinv. injection H as <- <-. split; [exact F|]. split; [lia|]. split.
    { exists (fun _ => 1). split; [intros; ring|intros; lra]. }
    split; [auto|]. split; [auto|]. split; [auto|]. intros P Q R. exfalso.
    destruct (horner_root p q P Q l 0 y Hr R) as [L Z]. rewrite L, Nat.eqb_refl, (Z F2) in E. discriminate E.
Qed.

(** ** The search *)
Section Search.
  Context {num : Type} {N : NumOps num}.
  Variable P : R -> R.
  Variable an : Z.
  Variable B : Z -> Z -> Prop. (* of the candidates *)

  Definition reported (res : list (expr num)) (v : R) : Prop :=
    exists p q, In (divide_real p q) res /\ (q <> 0)%Z /\ v = IZR p / IZR q /\ B p q.

  Record Inv (s : list Z * list (expr num)) : Prop := {
    inv_fine : fine an (fst s);
    inv_div : exists G, forall v, P v = G v * pe 0 (fst s) v;
    inv_res : forall r, In r (snd s) ->
      exists p q, r = divide_real p q /\ (q <> 0)%Z /\ P (IZR p / IZR q) = 0 /\ B p q;
    inv_all : forall v, P v = 0 -> v <> 0 -> pe 0 (fst s) v = 0 \/ reported (snd s) v
  }.

  Lemma reported_incl a b v : incl a b -> reported a v -> reported b v.
  Proof. intros H (p & q & A & K). exists p, q. auto. Qed.

  Lemma short_done s v : Inv s -> short s = true -> P v = 0 -> v <> 0 -> reported (snd s) v.
  Proof.
    intros I H H0 Hv. destruct (inv_all s I v H0 Hv) as [K|K]; [|exact K]. exfalso.
    destruct (inv_fine s I) as (F1 & F2 & F3). unfold short in H. apply Nat.leb_le in H. specialize (F3 H).
    destruct (fst s) as [|a [|? ?]]; [congruence| |simpl in H; lia]. cbn in F1, K.
    apply F3. apply eq_IZR. rewrite <- F1. lra.
  Qed.

  Lemma try_sign_inv sg p q s s' : B (p * sg)%Z q -> Inv s -> oks (try_sign sg p q s) s' ->
    Inv s' /\ (length (fst s') <= length (fst s))%nat /\ incl (snd s) (snd s') /\
    (rel_prime (p * sg) q -> (q <> 0)%Z -> (p * sg <> 0)%Z -> P (IZR (p * sg) / IZR q) = 0 ->
     reported (snd s') (IZR (p * sg) / IZR q)).
  Proof.
    intros HB I H. destruct s as [l res]. unfold try_sign in H. oinv. destruct y0 as [t f]. oinv.
    destruct (try_root_spec an _ _ _ _ _ _ _ (inv_fine _ I) Hr0) as (F & L & (G & G1 & G2) & A1 & A2 & A3 & A4).
    set (r := IZR (p * sg) / IZR q) in *.
    assert (In' : incl res (if f then res ++ [divide_real (p * sg) q] else res)).
    { destruct f; [apply incl_appl, incl_refl|apply incl_refl]. }
    assert (Hf : f = true -> (q <> 0)%Z /\ pe 0 l r = 0) by (intros Hf; destruct (A1 Hf) as [K|K]; [discriminate|exact K]).
    assert (Rep : f = true -> reported (if f then res ++ [divide_real (p * sg) q] else res) r).
    { intros E. destruct (Hf E) as [Hq _]. rewrite E. exists (p * sg)%Z, q. repeat split; auto.
      apply in_or_app. right. now left. }
    split; [|split; [exact L|split; [exact In'|]]].
    - destruct I as [If Id Ir Ia]. cbn [fst snd] in *. constructor; cbn [fst snd].
      + exact F.
      + destruct Id as [G0 H0]. exists (fun v => G0 v * G v). intros v. rewrite H0, G1. ring.
      + intros e He. destruct f; [|auto]. apply in_app_or in He. destruct He as [He|[<-|[]]]; [auto|].
        destruct (Hf eq_refl) as [Hq Hz]. exists (p * sg)%Z, q. split; [reflexivity|]. split; [exact Hq|]. split; [|exact HB].
        fold r. destruct Id as [G0 H0]. rewrite H0, Hz. ring.
      + intros v V1 V2. destruct (Ia v V1 V2) as [K|K]; [|right; exact (reported_incl _ _ _ In' K)].
        destruct (Req_dec v r) as [->|Hne].
        * destruct f; [right; auto|]. rewrite (A3 eq_refl). now left.
        * left. rewrite G1 in K. apply Rmult_integral in K. destruct K as [K|K]; [|exact K].
          destruct (G2 v Hne V2 K).
    - intros Hp Hq Hn Hz. assert (Hv : r <> 0).
      { unfold r. intros K. apply Rmult_integral in K. destruct K as [K|K]; [now apply Hn, eq_IZR|].
        revert K. now apply Rinv_neq_0_compat, not_0_IZR. }
      destruct (inv_all _ I r Hz Hv) as [K|K]; [|exact (reported_incl _ _ _ In' K)].
      apply Rep, A4; assumption.
  Qed.

  Lemma try_qs_inv p qs : (forall q, In q qs -> B (p * -1)%Z q /\ B (p * 1)%Z q) -> forall s s', Inv s -> oks (try_qs p qs s) s' ->
    Inv s' /\ (length (fst s') <= length (fst s))%nat /\ incl (snd s) (snd s') /\
    ((0 < p)%Z -> forall q sg, In q qs -> (0 < q)%Z -> rel_prime p q -> sg = (-1)%Z \/ sg = 1%Z ->
     P (IZR (p * sg) / IZR q) = 0 -> reported (snd s') (IZR (p * sg) / IZR q)).
  Proof.
    induction qs as [|q qs IH]; cbn [try_qs]; intros HB s s' I H; oinv.
    - split; [exact I|]. split; [lia|]. split; [apply incl_refl|]. intros _ q sg [].
    - assert (K : Inv y0 /\ (length (fst y0) <= length (fst s))%nat /\ incl (snd s) (snd y0) /\
        ((0 < p)%Z -> forall sg, (0 < q)%Z -> rel_prime p q -> sg = (-1)%Z \/ sg = 1%Z ->
          P (IZR (p * sg) / IZR q) = 0 -> reported (snd y0) (IZR (p * sg) / IZR q))).
      { destruct (y =? 1)%Z eqn:E.
        - oinv. destruct (try_sign_inv _ _ _ _ _ (proj1 (HB q (or_introl eq_refl))) I Hr1) as (I1 & L1 & N1 & C1).
          destruct (try_sign_inv _ _ _ _ _ (proj2 (HB q (or_introl eq_refl))) I1 Hr0) as (I2 & L2 & N2 & C2).
          split; [exact I2|]. split; [lia|]. split; [eapply incl_tran; eassumption|].
          intros Hp sg Hq Hr' [->| ->] Hz.
          + apply (reported_incl _ _ _ N2), C1; auto; try lia.
            replace (p * -1)%Z with (- p)%Z by lia.
            apply Zgcd_1_rel_prime. rewrite Z.gcd_opp_l. now apply Zgcd_1_rel_prime.
          + apply C2; auto; try lia. now rewrite Z.mul_1_r.
        - oinv. split; [exact I|]. split; [lia|]. split; [apply incl_refl|].
          intros Hp sg Hq Hr' _ _. exfalso.
          rewrite gcf_spec in Hr by lia. oinv. apply Z.eqb_neq in E. apply E.
          apply Zgcd_1_rel_prime. exact Hr'. }
      destruct K as (I1 & L1 & N1 & C1). destruct (short y0) eqn:Sh.
      + oinv. split; [exact I1|]. split; [exact L1|]. split; [exact N1|].
        intros Hp q' sg Hin Hq Hr' Hs Hz. apply short_done; auto.
        assert (p * sg <> 0)%Z by (destruct Hs; lia).
        intros K. apply Rmult_integral in K. destruct K as [K|K]; [now apply H, eq_IZR|].
        revert K. apply Rinv_neq_0_compat, not_0_IZR. lia.
      + destruct (IH (fun q' Hq' => HB q' (or_intror Hq')) _ _ I1 H) as (I2 & L2 & N2 & C2).
        split; [exact I2|]. split; [lia|]. split; [eapply incl_tran; eassumption|].
        intros Hp q' sg [<-|Hin] Hq Hr' Hs Hz; [|auto]. apply (reported_incl _ _ _ N2). auto.
  Qed.

  Lemma try_ps_inv ps : (forall p q qs, In p ps -> oks (all_factors an) qs -> In q qs -> B (p * -1)%Z q /\ B (p * 1)%Z q) ->
    forall s s', Inv s -> oks (try_ps ps s) s' ->
    Inv s' /\ (length (fst s') <= length (fst s))%nat /\ incl (snd s) (snd s') /\
    (forall p q sg, In p ps -> (0 < p)%Z -> (forall qs, oks (all_factors an) qs -> In q qs) -> (0 < q)%Z ->
     rel_prime p q -> sg = (-1)%Z \/ sg = 1%Z ->
     P (IZR (p * sg) / IZR q) = 0 -> reported (snd s') (IZR (p * sg) / IZR q)).
  Proof.
    induction ps as [|p ps IH]; cbn [try_ps]; intros HB s s' I H; oinv.
    - split; [exact I|]. split; [lia|]. split; [apply incl_refl|]. intros p q sg [].
    - destruct (inv_fine s I) as (F1 & F2 & F3). destruct s as [l res]. cbn [fst snd] in *.
      destruct l as [|front l]; [congruence|]. cbn [hd] in F1. subst front. oinv.
      destruct (try_qs_inv _ _ (fun q Hq => HB p q _ (or_introl eq_refl) Hr Hq) _ _ I Hr0) as (I1 & L1 & N1 & C1). cbn [fst snd] in *.
      destruct (short y0) eqn:Sh.
      + oinv. split; [exact I1|]. split; [exact L1|]. split; [exact N1|].
        intros p' q sg Hin Hp Hin' Hq Hr' Hs Hz. apply short_done; auto.
        assert (p' * sg <> 0)%Z by (destruct Hs; lia).
        intros K. apply Rmult_integral in K. destruct K as [K|K]; [now apply H, eq_IZR|].
        revert K. apply Rinv_neq_0_compat, not_0_IZR. lia.
      + destruct (IH (fun p' q qs Hp' => HB p' q qs (or_intror Hp')) _ _ I1 H) as (I2 & L2 & N2 & C2).
        split; [exact I2|]. split; [lia|]. split; [eapply incl_tran; eassumption|].
        intros p' q sg [<-|Hin] Hp Hin' Hq Hr' Hs Hz; [|eauto].
        apply (reported_incl _ _ _ N2). auto.
  Qed.
End Search.

Lemma rational_roots_spec {num} {N : NumOps num} (l : list Z) t (res : list (expr num)) :
  (2 <= length l)%nat -> oks (rational_roots l) (t, res) ->
  Inv (pe 0 l) (hd 0%Z l) (fun p q => Z.abs p <= Z.abs (last l 0) /\ Z.abs q <= Z.abs (hd 0 l))%Z (t, res) /\ (length t <= length l)%nat /\
  (forall p q sg, (0 < p)%Z -> (0 < q)%Z -> rel_prime p q -> sg = (-1)%Z \/ sg = 1%Z ->
     ((1 <= p /\ p * p <= last l 0 /\ (p | last l 0)) \/ (p = Z.abs (last l 0) /\ Z.abs (last l 0) <> 1))%Z ->
     ((1 <= q /\ q * q <= hd 0 l /\ (q | hd 0 l)) \/ (q = Z.abs (hd 0 l) /\ Z.abs (hd 0 l) <> 1))%Z ->
     pe 0 l (IZR (p * sg) / IZR q) = 0 ->
     reported (fun p q => Z.abs p <= Z.abs (last l 0) /\ Z.abs q <= Z.abs (hd 0 l))%Z res (IZR (p * sg) / IZR q)).
Proof.
  intros Hl H. unfold rational_roots in H. oinv.
  assert (I : Inv (pe 0 l) (hd 0%Z l) (fun p q => Z.abs p <= Z.abs (last l 0) /\ Z.abs q <= Z.abs (hd 0 l))%Z (l, @nil (expr num))).
  { constructor; cbn [fst snd].
    - repeat split; auto; [destruct l; [simpl in Hl; lia|discriminate]|lia].
    - exists (fun _ => 1). intros; ring.
    - intros r [].
    - auto. }
  assert (HB : forall p q qs, In p y -> oks (all_factors (hd 0%Z l)) qs -> In q qs ->
    (Z.abs (p * -1) <= Z.abs (last l 0) /\ Z.abs q <= Z.abs (hd 0 l))%Z /\ (Z.abs (p * 1) <= Z.abs (last l 0) /\ Z.abs q <= Z.abs (hd 0 l))%Z).
  { intros p q qs Hp Hqs Hq. apply (all_factors_le _ _ Hr) in Hp. apply (all_factors_le _ _ Hqs) in Hq. lia. }
  destruct (try_ps_inv _ _ _ _ HB _ _ I H) as (I1 & L1 & _ & C). split; [exact I1|]. split; [exact L1|].
  intros p q sg Hp Hq Hr' Hs Dp Dq Hz. apply C; auto.
  - apply (all_factors_spec _ _ Hr). exact Dp.
  - intros qs Hqs. apply (all_factors_spec _ _ Hqs). exact Dq.
Qed.

(** ** Only overflow can go wrong *)
Definition safe {A} (m : M A) : Prop := (exists a, m = ([], Ok a)) \/ m = ([], Undef IntOverflow).

Lemma safe_ret {A} (a : A) : safe (ret a).
Proof. left. eexists; reflexivity. Qed.
Lemma safe_bind {A B} (m : M A) (k : A -> M B) : safe m -> (forall a, oks m a -> safe (k a)) -> safe (bind m k).
Proof.
  intros [[a ->]| ->] H; [|now right].
  destruct (H a eq_refl) as [[b E]|E]; [left; exists b|right]; unfold bind; rewrite E; reflexivity.
Qed.
Lemma safe_ll z : safe (ll z).
Proof. unfold safe. destruct (ll_eq z) as [->| ->]; [left; eexists; reflexivity|now right]. Qed.
Lemma safe_factors n : safe (all_factors n).
Proof. exact (all_factors_runs n). Qed.

Lemma safe_horner p q l : (q <> 0)%Z -> forall h, safe (horner p q h l).
Proof.
  intros Hq. induction l as [|c l IH]; intros h; cbn [horner]; [apply safe_ret|].
  apply safe_bind; [apply safe_ll|]. intros y _.
  destruct (q =? 0)%Z eqn:E; [apply Z.eqb_eq in E; congruence|].
  destruct (Z.rem y q =? 0)%Z; cbn [negb]; [|apply safe_ret].
  apply safe_bind; [apply safe_ll|]. intros z _. apply safe_bind; [apply IH|]. intros; apply safe_ret.
Qed.

Lemma safe_try_root a p q : (q <> 0)%Z -> (a <> 0)%Z -> forall k l found, fine a l -> (length l <= k)%nat ->
  safe (try_root k p q l found).
Proof.
  intros Hq Ha. induction k as [|k IH]; intros l found F Hk.
  - destruct F as (_ & F2 & _). destruct l; [congruence|simpl in Hk; lia].
  - cbn [try_root]. apply safe_bind; [now apply safe_horner|]. intros new Hn.
    destruct (Nat.eqb (length new) (length l) && (last new 1 =? 0)%Z) eqn:E; [|apply safe_ret].
    apply andb_true_iff in E. rewrite Nat.eqb_eq, Z.eqb_eq in E. destruct E as [L Z].
    pose proof F as (F1 & F2 & F3). destruct (horner_last _ _ _ _ _ F2 Hn L) as (_ & c & r & -> & Hc).
    destruct (Hc eq_refl) as [r' ->]. cbn [hd] in F1. subst c.
    assert (L2 : (2 <= length (a :: r'))%nat) by (destruct r'; [cbn in Z; congruence|simpl; lia]).
    destruct (pop_zeros_runs _ L2 Ha) as [t Ht]. apply safe_bind; [left; eauto|]. intros t' Ht'.
    destruct (length t' <=? 1)%nat; [apply safe_ret|].
    destruct (fine_after _ _ _ _ _ _ F Hn L Ht') as (Ft & Lt & _). apply IH; [exact Ft|lia].
Qed.

Section SafeSearch.
  Context {num : Type} {N : NumOps num}.
  Variable P : R -> R.
  Variable an : Z.
  Hypothesis Han : (an <> 0)%Z.
  Notation Inv := (Inv (num := num) P an (fun _ _ => True)).

  Lemma safe_try_sign sg p q s : Inv s -> (q <> 0)%Z -> safe (try_sign (num := num) sg p q s).
  Proof.
    intros I Hq. destruct s as [l res]. unfold try_sign. apply safe_bind; [apply safe_ll|]. intros y _.
    apply safe_bind; [apply (safe_try_root an); auto; exact (inv_fine _ _ _ _ I)|]. intros [t f] _. apply safe_ret.
  Qed.
  Lemma safe_try_qs p qs : (0 < p)%Z -> forall s, Inv s -> (forall q, In q qs -> (0 < q)%Z) ->
    safe (try_qs (num := num) p qs s).
  Proof.
    intros Hp. induction qs as [|q qs IH]; intros s I Hq; cbn [try_qs]; [apply safe_ret|].
    assert (Hq0 : (0 < q)%Z) by (apply Hq; now left).
    rewrite gcf_spec by assumption. apply safe_bind; [apply safe_ret|]. intros g Hg. apply safe_bind.
    - destruct (g =? 1)%Z; [|apply safe_ret]. apply safe_bind; [apply safe_try_sign; auto; lia|].
      intros s1 H1. apply safe_try_sign; [|lia]. eapply try_sign_inv; [exact Logic.I|eassumption..].
    - intros s1 H1. destruct (short s1); [apply safe_ret|]. apply IH; [|intros; apply Hq; now right].
      destruct (g =? 1)%Z; oinv; [|exact I].
      apply (try_sign_inv _ _ _ _ _ _ _ _ Logic.I I) in Hr. destruct Hr as [I1 _]. eapply try_sign_inv; [exact Logic.I|eassumption..].
  Qed.
  Lemma safe_try_ps ps : (forall p, In p ps -> (0 < p)%Z) -> forall s, Inv s -> safe (try_ps (num := num) ps s).
  Proof.
    induction ps as [|p ps IH]; intros Hp s I; cbn [try_ps]; [apply safe_ret|].
    destruct (inv_fine _ _ _ _ I) as (F1 & F2 & F3). destruct s as [l res]. cbn [fst] in *.
    destruct l as [|front l]; [congruence|]. cbn [hd] in F1. subst front.
    apply safe_bind; [apply safe_factors|]. intros qs Hqs.
    assert (Q : forall q, In q qs -> (0 < q)%Z) by (intros q Hq; now apply (all_factors_pos _ _ Han Hqs)).
    apply safe_bind; [apply safe_try_qs; auto; apply Hp; now left|]. intros s1 H1.
    destruct (short s1); [apply safe_ret|]. apply IH; [intros; apply Hp; now right|].
    eapply (try_qs_inv _ _ (fun _ _ => True)); [|eassumption..]. auto.
  Qed.
End SafeSearch.

Lemma safe_rational_roots {num} {N : NumOps num} (l : list Z) : (2 <= length l)%nat ->
  (hd 0 l <> 0)%Z -> (last l 0 <> 0)%Z -> safe (rational_roots (num := num) l).
Proof.
  intros Hl Hh Hla. unfold rational_roots. apply safe_bind; [apply safe_factors|]. intros ps Hps.
  apply (safe_try_ps (pe 0 l) (hd 0%Z l)); auto.
  - intros p Hp. now apply (all_factors_pos _ _ Hla Hps).
  - constructor; cbn [fst snd].
    + repeat split; auto; destruct l; [simpl in Hl; lia|discriminate].
    + exists (fun _ => 1). intros; ring.
    + intros r [].
    + auto.
Qed.
