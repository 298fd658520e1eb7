(** Properties C34, C35 and C85: matrices. *)
From Coq Require Import String Bool Arith ZArith QArith Reals Lra Lia.
From Coquelicot Require Import Coquelicot.
From Coq Require Import List.
From Verif Require Import Base Num Expr Simplify Calculus MatrixM Spec QNum PowProofs PropertiesSimplify.
Import ListNotations.
Open Scope nat_scope.

(** ** Specification *)

(** [is_matrix e r c f]: [e] is the r x c matrix with entry [f i j] in row i
    and column j; the storage is row by row. *)
Definition is_matrix {num : Type} (e : expr num) (r c : nat) (f : nat -> nat -> num) : Prop :=
  exists d, e = EMat r c d /\ length d = r * c /\
  forall i j, i < r -> j < c -> nth_error d (i * c + j) = Some (f i j).

Definition Rsum (n : nat) (f : nat -> R) : R := fold_right Rplus 0%R (map f (seq 0 n)).

(** ** Lemmas *)
Section Lemmas.
  Context {num : Type} {N : NumOps num}.

  Lemma index_lt r c i j : i < r -> j < c -> i * c + j < r * c.
  Proof. intros. nia. Qed.
  Lemma index_inj c i j i' j' : j < c -> j' < c -> i * c + j = i' * c + j' -> i = i' /\ j = j'.
  Proof. intros Hj Hj' H. assert (i = i') by nia. subst. lia. Qed.

  Lemma set_nth_length k v : forall d : list num, length (set_nth k v d) = length d.
  Proof. induction k as [|k IH]; intros [|x d]; cbn; auto. Qed.
  Lemma nth_set_nth k v : forall (d : list num) m,
    nth_error (set_nth k v d) m = if (m =? k) && (m <? length d) then Some v else nth_error d m.
  Proof.
    induction k as [|k IH]; intros [|x d] [|m]; cbn; auto.
    - now rewrite andb_false_r.
    - rewrite IH. reflexivity.
  Qed.
  Lemma nth_error_eq (a b : list num) : (forall k, nth_error a k = nth_error b k) -> a = b.
  Proof.
    revert b. induction a as [|x a IH]; intros [|y b] H; auto.
    - specialize (H 0). discriminate.
    - specialize (H 0). discriminate.
    - f_equal; [specialize (H 0); now injection H|]. apply IH. intros k. exact (H (S k)).
  Qed.

  (* a loop of writes at increasing positions *)
  Lemma write_loop (g : nat -> num) n : forall d start,
    let d' := fold_left (fun d k => set_nth k (g k) d) (seq start n) d in
    length d' = length d /\
    forall m, nth_error d' m = if (start <=? m) && (m <? start + n) && (m <? length d) then Some (g m) else nth_error d m.
  Proof.
    induction n as [|n IH]; intros d start; cbn zeta; cbn [seq fold_left].
    - split; [reflexivity|]. intros m. destruct (start <=? m) eqn:E1; cbn [andb]; [|reflexivity].
      apply Nat.leb_le in E1. replace (m <? start + 0) with false; [reflexivity|]. symmetry. apply Nat.ltb_ge. lia.
    - destruct (IH (set_nth start (g start) d) (S start)) as [L K]. rewrite set_nth_length in L. split; [exact L|].
      intros m. rewrite K, set_nth_length, nth_set_nth.
      destruct (m =? start) eqn:E0.
      + apply Nat.eqb_eq in E0. subst m. replace (S start <=? start) with false by (symmetry; apply Nat.leb_gt; lia).
        cbn [andb]. rewrite Nat.leb_refl. replace (start <? start + S n) with true by (symmetry; apply Nat.ltb_lt; lia). reflexivity.
      + apply Nat.eqb_neq in E0. cbn [andb].
        replace (S start <=? m) with (start <=? m).
        * replace (m <? S start + n) with (m <? start + S n); [reflexivity|].
          destruct (m <? start + S n) eqn:F; symmetry; [apply Nat.ltb_lt in F; apply Nat.ltb_lt; lia|apply Nat.ltb_ge in F; apply Nat.ltb_ge; lia].
        * destruct (start <=? m) eqn:F; symmetry; [apply Nat.leb_le in F; apply Nat.leb_le; lia|apply Nat.leb_gt in F; apply Nat.leb_gt; lia].
  Qed.

  Lemma mtab_nth r c (f : nat -> nat -> num) :
    length (mtab r c f) = r * c /\ forall i j, i < r -> j < c -> nth_error (mtab r c f) (i * c + j) = Some (f i j).
  Proof.
    unfold mtab.
    assert (G : forall s, length (flat_map (fun i => map (fun j => f i j) (seq 0 c)) (seq s r)) = r * c /\
      forall i j, i < r -> j < c ->
      nth_error (flat_map (fun i => map (fun j => f i j) (seq 0 c)) (seq s r)) (i * c + j) = Some (f (s + i) j)).
    { induction r as [|r IH]; intros s; cbn [seq flat_map]; [split; [reflexivity|intros; lia]|].
      destruct (IH (S s)) as [L K]. split; [rewrite app_length, L, map_length, seq_length; lia|].
      intros [|i] j Hi Hj.
      - rewrite nth_error_app1 by (rewrite map_length, seq_length; lia). cbn [Nat.mul Nat.add].
        rewrite Nat.add_0_r. erewrite map_nth_error; [reflexivity|].
        rewrite (nth_error_nth' _ 0) by (rewrite seq_length; lia). rewrite seq_nth by lia. reflexivity.
      - rewrite nth_error_app2 by (rewrite map_length, seq_length; nia). rewrite map_length, seq_length.
        replace (S i * c + j - c) with (i * c + j) by nia. rewrite K by lia. do 2 f_equal. lia. }
    destruct (G 0) as [L K]. split; [exact L|]. intros. now rewrite K.
  Qed.

  Lemma mget_matrix r c (d : list num) f : (forall i j, i < r -> j < c -> nth_error d (i * c + j) = Some (f i j)) ->
    forall i j, i < r -> j < c -> mget c d i j = f i j.
  Proof. intros H i j Hi Hj. unfold mget. apply nth_error_nth. now apply H. Qed.

  Lemma all_entries r c (d : list num) : length d = r * c -> forall k, k < length d ->
    exists i j, i < r /\ j < c /\ k = i * c + j.
  Proof.
    intros L k Hk. assert (c <> 0) by (intros ->; lia). exists (k / c), (k mod c).
    repeat split; [apply Nat.div_lt_upper_bound; lia|now apply Nat.mod_upper_bound|].
    rewrite Nat.mul_comm. now apply Nat.div_mod.
  Qed.
  Lemma matrix_ext r c (a b : list num) f : length a = r * c -> length b = r * c ->
    (forall i j, i < r -> j < c -> nth_error a (i * c + j) = Some (f i j)) ->
    (forall i j, i < r -> j < c -> nth_error b (i * c + j) = Some (f i j)) -> a = b.
  Proof.
    intros La Lb Ha Hb. apply nth_error_eq. intros k. destruct (Nat.lt_ge_cases k (r * c)) as [Hk|Hk].
    - rewrite <- La in Hk. destruct (all_entries r c a La k Hk) as (i & j & Hi & Hj & ->). now rewrite Ha, Hb.
    - rewrite (proj2 (nth_error_None a k)), (proj2 (nth_error_None b k)) by lia. reflexivity.
  Qed.

  Lemma mzip_spec (op : num -> num -> num) : forall a b k x y, length a = length b ->
    nth_error a k = Some x -> nth_error b k = Some y ->
    length (mzip op a b) = length a /\ nth_error (mzip op a b) k = Some (op x y).
  Proof.
    intros a b k x y L. intros Ha Hb. split.
    - clear k x y Ha Hb. revert b L. induction a as [|u a IH]; intros [|w b] L; try discriminate L; cbn; auto.
    - revert b k L Ha Hb. induction a as [|u a IH]; intros [|w b] [|k] L Ha Hb; try discriminate; cbn in *.
      + congruence.
      + apply IH; auto.
  Qed.
  Lemma mzip_length (op : num -> num -> num) : forall a b, length a = length b -> length (mzip op a b) = length a.
  Proof. induction a as [|u a IH]; intros [|w b] L; try discriminate L; cbn; auto. Qed.

  Lemma all_eqb_false (a b : list num) : length a = length b -> forall k x y, nth_error a k = Some x -> nth_error b k = Some y ->
    n_eqb x y = false -> all_eqb a b = false.
  Proof.
    revert b. induction a as [|u a IH]; intros [|w b] L [|k] x y Ha Hb H; try discriminate; cbn in *.
    - injection Ha as ->. injection Hb as ->. now rewrite H.
    - rewrite (IH b ltac:(lia) k x y Ha Hb H). apply andb_false_r.
  Qed.
End Lemmas.

(** ** C34 *)
Theorem c34_constructor :
  forall (num : Type) (N : NumOps num) (r c : nat) (vals : list num),
  is_matrix (new_matrix r c vals) r c (fun i j => nth (i * c + j) vals n0).
Proof.
  intros num N r c vals. unfold new_matrix.
  assert (G : forall l d, (forall k, In k l -> c <> 0) ->
    fold_left (fun d index => mset c d (index / c) (index mod c) (if index <? length vals then nth index vals n0 else n0)) l d =
    fold_left (fun d k => set_nth k (nth k vals n0) d) l d).
  { induction l as [|k l IH]; intros d Hc; [reflexivity|]. cbn [fold_left]. unfold mset at 2.
    assert (c <> 0) by (apply (Hc k); now left).
    replace (k / c * c + k mod c) with k by (rewrite Nat.mul_comm; now apply Nat.div_mod).
    replace (if k <? length vals then nth k vals n0 else n0) with (nth k vals n0).
    - apply IH. intros m Hm. apply (Hc m). now right.
    - destruct (k <? length vals) eqn:E; [reflexivity|]. apply Nat.ltb_ge in E. now apply nth_overflow. }
  eexists. split; [reflexivity|]. rewrite G by (intros k Hk; apply in_seq in Hk; nia).
  destruct (write_loop (fun k => nth k vals n0) (r * c) (repeat n0 (r * c)) 0) as [L K].
  rewrite repeat_length in *. split; [exact L|].
  intros i j Hi Hj. rewrite K. pose proof (index_lt r c i j Hi Hj) as B. apply Nat.ltb_lt in B.
  cbn [Nat.add]. rewrite B. cbn. reflexivity.
Qed.
Print Assumptions c34_constructor.

Theorem c34_transpose :
  forall (num : Type) (N : NumOps num) (r c : nat) (d : list num) (f : nat -> nat -> num),
  is_matrix (EMat r c d) r c f ->
  is_matrix (transpose r c d) c r (fun i j => f j i).
Proof.
  intros num N r c d f (d' & E & L & H). injection E as <-. unfold transpose. eexists. split; [reflexivity|].
  destruct (mtab_nth c r (fun i j => mget c d j i)) as [L' K]. split; [exact L'|].
  intros i j Hi Hj. rewrite K by assumption. f_equal. now apply (mget_matrix r c d f H).
Qed.
Print Assumptions c34_transpose.

Theorem c34_transpose_twice :
  forall (num : Type) (N : NumOps num) (r c : nat) (d : list num), length d = r * c ->
  exists d', transpose r c d = EMat c r d' /\ transpose c r d' = EMat r c d.
Proof.
  intros num N r c d L. eexists. split; [reflexivity|]. unfold transpose. f_equal.
  assert (H : forall i j, i < r -> j < c -> nth_error d (i * c + j) = Some (mget c d i j)).
  { intros i j Hi Hj. apply nth_error_nth'. rewrite L. now apply index_lt. }
  destruct (mtab_nth c r (fun i j => mget c d j i)) as [L1 K1].
  destruct (mtab_nth r c (fun i j => mget r (mtab c r (fun i j => mget c d j i)) j i)) as [L2 K2].
  apply (matrix_ext r c _ _ (fun i j => mget c d i j)); auto.
  intros i j Hi Hj. rewrite K2 by assumption. f_equal. now apply (mget_matrix c r _ (fun i j => mget c d j i) K1).
Qed.
Print Assumptions c34_transpose_twice.

Theorem c34_identity :
  forall (num : Type) (N : NumOps num) (r c : nat),
  is_matrix (identity r c) r c (fun i j => if Nat.eqb i j then n1 else n0).
Proof.
  intros num N r c. unfold identity. eexists. split; [reflexivity|].
  set (g := fun k => if k / c =? k mod c then n1 else n0).
  assert (Row : forall x d, fold_left (fun d y => mset c d x y (if x =? y then n1 else n0)) (seq 0 c) d =
                            fold_left (fun d k => set_nth k (g k) d) (seq (x * c) c) d).
  { intros x d. assert (G : forall n s d, s + n <= c ->
      fold_left (fun d y => mset c d x y (if x =? y then n1 else n0)) (seq s n) d =
      fold_left (fun d k => set_nth k (g k) d) (seq (x * c + s) n) d).
    { induction n as [|n IH]; intros s d' Hs; [reflexivity|]. cbn [seq fold_left].
      rewrite IH by lia. replace (x * c + S s) with (S (x * c + s)) by lia. f_equal. unfold mset, g.
      replace ((x * c + s) / c) with x by (apply Nat.div_unique with s; lia).
      replace ((x * c + s) mod c) with s by (apply Nat.mod_unique with x; lia). reflexivity. }
    rewrite G by lia. now rewrite Nat.add_0_r. }
  assert (All : forall n s d, fold_left (fun d x => fold_left (fun d y => mset c d x y (if x =? y then n1 else n0)) (seq 0 c) d) (seq s n) d =
    fold_left (fun d k => set_nth k (g k) d) (seq (s * c) (n * c)) d).
  { induction n as [|n IH]; intros s d; [reflexivity|]. cbn [seq fold_left]. rewrite IH, Row.
    change (S n * c) with (c + n * c). rewrite seq_app, fold_left_app.
    replace (S s * c) with (s * c + c) by lia. reflexivity. }
  rewrite All. change (0 * c) with 0. destruct (write_loop g (r * c) (repeat n0 (r * c)) 0) as [L K].
  rewrite repeat_length in *. split; [exact L|]. intros i j Hi Hj. rewrite K.
  pose proof (index_lt r c i j Hi Hj) as B. apply Nat.ltb_lt in B. cbn [Nat.add]. rewrite B. cbn. unfold g.
  replace ((i * c + j) / c) with i by (apply Nat.div_unique with j; lia).
  replace ((i * c + j) mod c) with j by (apply Nat.mod_unique with i; lia). reflexivity.
Qed.
Print Assumptions c34_identity.

Example c34_case :
  new_matrix 2 2 [1; 2; 3]%Q = EMat 2 2 [1; 2; 3; 0]%Q /\
  transpose 2 3 [1; 2; 3; 4; 5; 6]%Q = EMat 3 2 [1; 4; 2; 5; 3; 6]%Q /\
  identity 2 3 = EMat 2 3 [1; 0; 0; 0; 1; 0]%Q.
Proof. repeat split. Qed.

(** ** C35 *)
Definition C35_statement : Prop :=
  forall (num : Type) (N : NumOps num) (toR : num -> R), Exact N toR ->
  forall (a b A B : expr num) r1 c1 r2 c2 f g,
  simplifies_to a A -> simplifies_to b B -> is_matrix A r1 c1 f -> is_matrix B r2 c2 g ->
  (exists m, simplifies_to (EAdd a b) m /\
     if Nat.eqb r1 r2 && Nat.eqb c1 c2 then is_matrix m r1 c1 (fun i j => n_add (f i j) (g i j)) else m = EAdd A B) /\
  (exists m, simplifies_to (ESub a b) m /\
     if Nat.eqb r1 r2 && Nat.eqb c1 c2 then is_matrix m r1 c1 (fun i j => n_sub (f i j) (g i j)) else m = ESub A B) /\
  (exists m, simplifies_to (EMul a b) m /\
     if Nat.eqb c1 r2
     then exists h, is_matrix m r1 c2 h /\
          forall i j, i < r1 -> j < c2 -> toR (h i j) = Rsum c1 (fun k => (toR (f i k) * toR (g k j))%R)
     else m = EMul A B).

Section C35.
  Context {num : Type} {N : NumOps num}.

  Lemma bin_visit o (a b A B r : expr num) :
    simplifies_to a A -> simplifies_to b B ->
    (forall n prefer, snd (simp n prefer a) = Ok A -> snd (simp n prefer b) = Ok B ->
       snd (simp (S n) prefer (EBin o a b)) = Ok r) ->
    simplifies_to (EBin o a b) r.
  Proof.
    intros [k1 H1] [k2 H2] H. exists (S (max k1 k2)). intros n prefer Hn. destruct n as [|n]; [lia|].
    apply H; [apply H1|apply H2]; lia.
  Qed.

  Lemma snd_bind {A B} (m : M A) (k : A -> M B) a : snd m = Ok a -> snd (bind m k) = snd (k a).
  Proof. destruct m as [t o]. cbn. intros ->. reflexivity. Qed.
  Lemma snd_try {A} (m : M A) a : snd m = Ok a -> snd (m_try m) = Ok (inl a).
  Proof. destruct m as [t o]. cbn. intros ->. reflexivity. Qed.
  Lemma snd_operands (S : expr num -> M (expr num)) a b A B k :
    snd (S a) = Ok A -> snd (S b) = Ok B -> snd (operands S a b k) = snd (k A B).
  Proof.
    intros Ha Hb. unfold operands. rewrite (snd_bind _ _ _ (snd_try _ _ Ha)), (snd_bind _ _ _ (snd_try _ _ Hb)). reflexivity.
  Qed.

  Lemma m_eq_mat r1 c1 d1 r2 c2 (d2 : list num) :
    snd (m_eq (EMat r1 c1 d1) (EMat r2 c2 d2)) = Ok (Nat.eqb r1 r2 && Nat.eqb c1 c2 && all_eqb d1 d2).
  Proof.
    unfold m_eq. cbn [equals eqm fst leaf_equals]. unfold emit.
    match goal with |- context [if ?c then _ else _] => destruct c end; reflexivity.
  Qed.

  Lemma add_mats a b r1 c1 d1 r2 c2 (d2 : list num) :
    simplifies_to a (EMat r1 c1 d1) -> simplifies_to b (EMat r2 c2 d2) ->
    simplifies_to (EAdd a b)
      (if Nat.eqb r1 r2 && Nat.eqb c1 c2 then EMat r1 c1 (mzip n_add d1 d2) else EAdd (EMat r1 c1 d1) (EMat r2 c2 d2)).
  Proof.
    intros Ha Hb. apply (bin_visit _ _ _ _ _ _ Ha Hb). intros n prefer Sa Sb.
    cbn [simp simp_step]. unfold visit_add. rewrite (snd_operands _ _ _ _ _ _ Sa Sb).
    unfold add_rules. cbn [first_rule]. unfold add_120. cbn.
    destruct (Nat.eqb r1 r2 && Nat.eqb c1 c2); reflexivity.
  Qed.
  Lemma sub_mats a b r1 c1 d1 r2 c2 (d2 : list num) :
    simplifies_to a (EMat r1 c1 d1) -> simplifies_to b (EMat r2 c2 d2) ->
    (r1 <> r2 \/ (c1 = c2 /\ all_eqb d1 d2 = false)) ->
    simplifies_to (ESub a b)
      (if Nat.eqb r1 r2 && Nat.eqb c1 c2 then EMat r1 c1 (mzip n_sub d1 d2) else ESub (EMat r1 c1 d1) (EMat r2 c2 d2)).
  Proof.
    intros Ha Hb Hd. apply (bin_visit _ _ _ _ _ _ Ha Hb). intros n prefer Sa Sb.
    cbn [simp simp_step]. unfold visit_sub. rewrite (snd_operands _ _ _ _ _ _ Sa Sb).
    unfold sub_rules. cbn [first_rule]. unfold sub_360 at 1. cbn [rcast binop_eqb commut].
    rewrite (snd_bind _ _ None) by reflexivity. cbn beta iota.
    assert (E : (Nat.eqb r1 r2 && Nat.eqb c1 c2 && all_eqb d1 d2) = false).
    { destruct Hd as [Hd|[-> ->]]; [|apply andb_false_r]. apply Nat.eqb_neq in Hd. now rewrite Hd. }
    rewrite (snd_bind _ _ None).
    2:{ unfold sub_368. rewrite (snd_bind _ _ _ (m_eq_mat _ _ _ _ _ _)), E. reflexivity. }
    unfold sub_372 at 1. cbn [rcast binop_eqb commut]. rewrite Nat.eqb_refl, andb_true_r.
    destruct (Nat.eqb r1 r2) eqn:E1; cbn [andb].
    - destruct Hd as [Hd|[-> _]]; [apply Nat.eqb_eq in E1; congruence|]. rewrite Nat.eqb_refl. reflexivity.
    - reflexivity.
  Qed.
  Lemma mul_mats a b r1 c1 d1 r2 c2 (d2 : list num) :
    simplifies_to a (EMat r1 c1 d1) -> simplifies_to b (EMat r2 c2 d2) ->
    (Nat.eqb r1 r2 && Nat.eqb c1 c2 && all_eqb d1 d2) = false ->
    simplifies_to (EMul a b)
      (if Nat.eqb c1 r2 then
         EMat r1 c2 (mtab r1 c2 (fun i j => mdot c1 (fun k => n_mul (mget c1 d1 i k) (mget c2 d2 k j))))
       else EMul (EMat r1 c1 d1) (EMat r2 c2 d2)).
  Proof.
    intros Ha Hb E. apply (bin_visit _ _ _ _ _ _ Ha Hb). intros n prefer Sa Sb.
    cbn [simp simp_step]. unfold visit_mul. rewrite (snd_operands _ _ _ _ _ _ Sa Sb).
    unfold mul_rules. cbn [first_rule]. do 4 rewrite (snd_bind _ _ None) by reflexivity. cbn beta iota.
    rewrite (snd_bind _ _ None).
    2:{ unfold mul_506. rewrite (snd_bind _ _ _ (m_eq_mat _ _ _ _ _ _)), E. reflexivity. }
    rewrite (snd_bind _ _ None) by reflexivity. unfold mul_516 at 1. cbn [rcast binop_eqb commut].
    destruct (Nat.eqb c1 r2); reflexivity.
  Qed.

  Variable toR : num -> R.
  Hypothesis E : Exact N toR.
  Lemma mdot_sum n (f : nat -> num) : toR (mdot n f) = Rsum n (fun k => toR (f k)).
  Proof.
    unfold mdot, Rsum. destruct n as [|n]; [apply (ex_of_Z _ _ E)|]. cbn [seq map fold_right].
    assert (G : forall l a, toR (fold_left (fun acc k => n_add acc (f k)) l a) = (toR a + fold_right Rplus 0 (map (fun k => toR (f k)) l))%R).
    { induction l as [|k l IH]; intros a; cbn [fold_left map fold_right]; [ring|]. rewrite IH, (ex_add _ _ E). ring. }
    apply G.
  Qed.
End C35.

(** The product of a matrix with itself stays a power, and the difference is
    the number 0: Equals is tested before the dimensions.  Rows of equal number
    and different columns are subtracted out of range. *)
Theorem c35_equal_matrices :
  simplifies_to (ESub (EMat 1 1 [1%Q]) (EMat 1 1 [1%Q])) (qr 0) /\
  simplifies_to (EMul (EMat 1 1 [1%Q]) (EMat 1 1 [1%Q])) (EExp (EMat 1 1 [1%Q]) (qr 2)) /\
  forall n prefer, 2 <= n ->
  snd (simp n prefer (ESub (EMat 1 1 [1%Q]) (EMat 1 2 [1%Q; 2%Q]))) = Undef EigenMismatch.
Proof.
  repeat split; try (exists 2); intros [|[|n]] prefer Hn; try lia; destruct prefer; reflexivity.
Qed.
Print Assumptions c35_equal_matrices.

Theorem c35_refuted : ~ C35_statement.
Proof.
  intros H.
  assert (S1 : simplifies_to (EMat 1 1 [1%Q]) (EMat 1 1 [1%Q])).
  { exists 1. intros [|n] prefer Hn; [lia|reflexivity]. }
  assert (M1 : is_matrix (EMat 1 1 [1%Q]) 1 1 (fun _ _ => 1%Q)).
  { exists [1%Q]. repeat split. intros [|i] [|j] Hi Hj; try lia. reflexivity. }
  destruct (H Q Q_ops Q2R Q_exact _ _ _ _ _ _ _ _ _ _ S1 S1 M1 M1) as (_ & (m & [k Hk] & (d & -> & _)) & _).
  destruct c35_equal_matrices as ([k' Hk'] & _).
  specialize (Hk (max k k') false ltac:(lia)). specialize (Hk' (max k k') false ltac:(lia)). rewrite Hk' in Hk. discriminate Hk.
Qed.
Print Assumptions c35_refuted.

Section Different.
  Context {num : Type} {N : NumOps num}.
  (** Two matrices of which some entry, or some dimension, differs. *)
  Definition different (r1 c1 r2 c2 : nat) (f g : nat -> nat -> num) : Prop :=
    r1 <> r2 \/ c1 <> c2 \/ exists i j, i < r1 /\ j < c1 /\ n_eqb (f i j) (g i j) = false.
  Lemma different_all_eqb r c d1 d2 f g i j :
    length d1 = r * c -> length d2 = r * c ->
    (forall i j, i < r -> j < c -> nth_error d1 (i * c + j) = Some (f i j)) ->
    (forall i j, i < r -> j < c -> nth_error d2 (i * c + j) = Some (g i j)) ->
    i < r -> j < c -> n_eqb (f i j) (g i j) = false -> all_eqb d1 d2 = false.
  Proof.
    intros L1 L2 H1 H2 Hi Hj H. apply (all_eqb_false d1 d2 ltac:(congruence) (i * c + j) (f i j) (g i j)); auto.
  Qed.
End Different.

Theorem c35_add :
  forall (num : Type) (N : NumOps num) (a b A B : expr num) r1 c1 r2 c2 f g,
  simplifies_to a A -> simplifies_to b B -> is_matrix A r1 c1 f -> is_matrix B r2 c2 g ->
  exists m, simplifies_to (EAdd a b) m /\
     if Nat.eqb r1 r2 && Nat.eqb c1 c2 then is_matrix m r1 c1 (fun i j => n_add (f i j) (g i j)) else m = EAdd A B.
Proof.
  intros num N a b A B r1 c1 r2 c2 f g Ha Hb (d1 & -> & L1 & H1) (d2 & -> & L2 & H2).
  eexists. split; [exact (add_mats _ _ _ _ _ _ _ _ Ha Hb)|].
  destruct (Nat.eqb r1 r2 && Nat.eqb c1 c2) eqn:E; [|reflexivity].
  apply andb_true_iff in E. rewrite !Nat.eqb_eq in E. destruct E as [<- <-].
  eexists. split; [reflexivity|]. split; [rewrite mzip_length; congruence|].
  intros i j Hi Hj. eapply mzip_spec; [congruence|auto|auto].
Qed.
Print Assumptions c35_add.

(** Missing: equal operands, and equal numbers of rows with different numbers
    of columns. *)
Theorem c35_sub_partial :
  forall (num : Type) (N : NumOps num) (a b A B : expr num) r1 c1 r2 c2 f g,
  simplifies_to a A -> simplifies_to b B -> is_matrix A r1 c1 f -> is_matrix B r2 c2 g ->
  different r1 c1 r2 c2 f g -> (r1 = r2 -> c1 = c2) ->
  exists m, simplifies_to (ESub a b) m /\
     if Nat.eqb r1 r2 && Nat.eqb c1 c2 then is_matrix m r1 c1 (fun i j => n_sub (f i j) (g i j)) else m = ESub A B.
Proof.
  intros num N a b A B r1 c1 r2 c2 f g Ha Hb (d1 & -> & L1 & H1) (d2 & -> & L2 & H2) D Hc.
  assert (Hd : r1 <> r2 \/ (c1 = c2 /\ all_eqb d1 d2 = false)).
  { destruct (Nat.eq_dec r1 r2) as [<-|]; [right|now left]. specialize (Hc eq_refl). subst c2. split; [reflexivity|].
    destruct D as [D|[D|(i & j & Hi & Hj & D)]]; try congruence. exact (different_all_eqb r1 c1 d1 d2 f g i j L1 L2 H1 H2 Hi Hj D). }
  eexists. split; [exact (sub_mats _ _ _ _ _ _ _ _ Ha Hb Hd)|].
  destruct (Nat.eqb r1 r2 && Nat.eqb c1 c2) eqn:E; [|reflexivity].
  apply andb_true_iff in E. rewrite !Nat.eqb_eq in E. destruct E as [<- <-].
  eexists. split; [reflexivity|]. split; [rewrite mzip_length; congruence|].
  intros i j Hi Hj. eapply mzip_spec; [congruence|auto|auto].
Qed.
Print Assumptions c35_sub_partial.

(** Missing: equal operands. *)
Theorem c35_mul_partial :
  forall (num : Type) (N : NumOps num) (toR : num -> R), Exact N toR ->
  forall (a b A B : expr num) r1 c1 r2 c2 f g,
  simplifies_to a A -> simplifies_to b B -> is_matrix A r1 c1 f -> is_matrix B r2 c2 g ->
  different r1 c1 r2 c2 f g ->
  exists m, simplifies_to (EMul a b) m /\
     if Nat.eqb c1 r2
     then exists h, is_matrix m r1 c2 h /\
          forall i j, i < r1 -> j < c2 -> toR (h i j) = Rsum c1 (fun k => (toR (f i k) * toR (g k j))%R)
     else m = EMul A B.
Proof.
  intros num N toR X a b A B r1 c1 r2 c2 f g Ha Hb (d1 & -> & L1 & H1) (d2 & -> & L2 & H2) D.
  assert (Hd : (Nat.eqb r1 r2 && Nat.eqb c1 c2 && all_eqb d1 d2) = false).
  { destruct (Nat.eqb r1 r2 && Nat.eqb c1 c2) eqn:E; [|reflexivity].
    apply andb_true_iff in E. rewrite !Nat.eqb_eq in E. destruct E as [<- <-].
    destruct D as [D|[D|(i & j & Hi & Hj & D)]]; try congruence. exact (different_all_eqb r1 c1 d1 d2 f g i j L1 L2 H1 H2 Hi Hj D). }
  eexists. split; [exact (mul_mats _ _ _ _ _ _ _ _ Ha Hb Hd)|].
  destruct (Nat.eqb c1 r2) eqn:E; [|reflexivity]. apply Nat.eqb_eq in E. subst r2.
  set (h := fun i j => mdot c1 (fun k => n_mul (mget c1 d1 i k) (mget c2 d2 k j))).
  destruct (mtab_nth r1 c2 h) as [L K]. exists h. split; [eexists; split; [reflexivity|]; split; auto|].
  intros i j Hi Hj. unfold h. rewrite (mdot_sum toR X). unfold Rsum. f_equal. apply map_ext_in.
  intros k Hk. apply in_seq in Hk. rewrite (ex_mul _ _ X).
  rewrite (mget_matrix r1 c1 d1 f H1), (mget_matrix c1 c2 d2 g H2) by lia. reflexivity.
Qed.
Print Assumptions c35_mul_partial.

Example c35_case :
  snd (simp 4 false (EMul (EMat 1 2 [1; 2]%Q) (EMat 2 1 [3; 4]%Q))) = Ok (EMat 1 1 [11%Q]) /\
  different (num := Q) 1 2 2 1 (fun _ _ => 0%Q) (fun _ _ => 0%Q).
Proof. split; [reflexivity|left; lia]. Qed.

(** ** C85: the magnitude of a matrix *)
Definition C85_statement : Prop :=
  forall (num : Type) (N : NumOps num) (toR : num -> R), Exact N toR ->
  (forall x, n_pow_exact x (n_of_Z 2) = true) -> (forall x, n_pow_exact x n_half = true) ->
  forall (a A : expr num) r c f, simplifies_to a A -> is_matrix A r c f ->
  exists m, simplifies_to (EMag a) (EReal m) /\
    toR m = sqrt (Rsum r (fun i => Rsum c (fun j => (toR (f i j) * toR (f i j))%R))).

Lemma Rsum_app a b h : Rsum (a + b) h = (Rsum a h + Rsum b (fun k => h (a + k)%nat))%R.
Proof.
  unfold Rsum. rewrite seq_app, map_app. cbn [Nat.add]. replace (map h (seq a b)) with (map (fun k => h (a + k)) (seq 0 b)).
  - generalize (map (fun k => h (a + k)) (seq 0 b)). intros l. induction (map h (seq 0 a)) as [|x k IH]; cbn; [ring|]. rewrite IH. ring.
  - clear. revert a. induction b as [|b IH]; intros a; [reflexivity|]. cbn [seq map]. f_equal; [f_equal; lia|].
    rewrite <- seq_shift, map_map, <- (IH (S a)). apply map_ext. intros k. f_equal. lia.
Qed.
Lemma Rsum_ext n g h : (forall k, k < n -> g k = h k) -> Rsum n g = Rsum n h.
Proof. intros H. unfold Rsum. f_equal. apply map_ext_in. intros k Hk. apply in_seq in Hk. apply H. lia. Qed.
Lemma Rsum_grid r c h : Rsum (r * c) h = Rsum r (fun i => Rsum c (fun j => h (i * c + j))).
Proof.
  induction r as [|r IH]; [reflexivity|]. replace (S r * c) with (r * c + c) by lia. rewrite Rsum_app, IH.
  replace (S r) with (r + 1) by lia. rewrite Rsum_app. f_equal. unfold Rsum at 2. cbn [seq map fold_right]. rewrite Rplus_0_r.
  apply Rsum_ext. intros k _. f_equal. lia.
Qed.
Lemma Rsum_nonneg n h : (forall k, 0 <= h k)%R -> (0 <= Rsum n h)%R.
Proof. intros H. unfold Rsum. induction (seq 0 n) as [|k l IH]; cbn; [lra|]. specialize (H k). lra. Qed.

Section Magnitude.
  Context {num : Type} {N : NumOps num} (toR : num -> R).
  Hypothesis X : Exact N toR.
  Hypothesis P2 : forall x, n_pow_exact x (n_of_Z 2) = true.
  Hypothesis Ph : forall x, n_pow_exact x n_half = true.

  Lemma exact_square x : toR (n_pow x (n_of_Z 2)) = (toR x * toR x)%R.
  Proof.
    apply RtoC_inj. symmetry. apply (ex_pow _ _ X); [apply P2|]. rewrite (ex_of_Z _ _ X), RtoC_mult. apply cpow_2.
  Qed.
  Lemma squares_sum d : forall s, toR (fold_left (fun s x => n_add s (n_pow x (n_of_Z 2))) d s) =
    (toR s + Rsum (length d) (fun k => match nth_error d k with Some x => toR x * toR x | None => 0 end))%R.
  Proof.
    induction d as [|x d IH]; intros s; cbn [fold_left length].
    - unfold Rsum. cbn. ring.
    - rewrite IH, (ex_add _ _ X), exact_square. change (S (length d)) with (1 + length d). rewrite Rsum_app. unfold Rsum at 2. cbn. ring.
  Qed.
  Lemma root_value x : (0 <= toR x)%R -> toR (fold_lit (EExp (EReal x) (EReal n_half))) = sqrt (toR x).
  Proof.
    intros H. cbn [fold_lit fold2].
    assert (E : n_eqb n_half n0 = false).
    { destruct (n_eqb n_half n0) eqn:E; [|reflexivity]. apply (ex_eqb _ _ X) in E. unfold n0 in E. rewrite (ex_half _ _ X), (ex_of_Z _ _ X) in E. lra. }
    rewrite E. destruct (n_eqb x n0) eqn:E0.
    - apply (ex_eqb _ _ X) in E0. unfold n0 in E0. rewrite (ex_of_Z _ _ X) in *. rewrite E0. now rewrite sqrt_0.
    - assert (Hx : (0 < toR x)%R).
      { destruct H as [H|H]; [exact H|]. exfalso. assert (n_eqb x n0 = true); [|congruence]. apply (ex_eqb _ _ X). unfold n0. rewrite (ex_of_Z _ _ X). auto. }
      apply RtoC_inj. symmetry. apply (ex_pow _ _ X); [apply Ph|]. apply cpow_real_iff; [exact Hx|]. rewrite (ex_half _ _ X), Rpower_sqrt by exact Hx. reflexivity.
  Qed.
End Magnitude.

Theorem c85_magnitude : C85_statement.
Proof.
  intros num N toR X P2 Ph a A r c f [k Ha] (d & -> & Ld & Hd).
  set (s := fold_left (fun s x => n_add s (n_pow x (n_of_Z 2))) d (n_of_Z 0)).
  exists (fold_lit (EExp (EReal s) (EReal n_half))). split.
  - exists (S (S (S k))). intros n prefer Hn. destruct n as [|n]; [lia|].
    assert (L : snd (simp n prefer (EExp (EReal s) (EReal n_half))) = Ok (EReal (fold_lit (EExp (EReal s) (EReal n_half))))) by (apply literal_fold; cbn; [tauto|lia]).
    specialize (Ha n prefer ltac:(lia)).
    remember (EExp (EReal s) (EReal n_half)) as p eqn:Ep. cbn [simp simp_step]. unfold visit_mag.
    destruct (simp n prefer a) as [w o]. cbn in Ha. subst o. cbn [bind].
    cbn. change (fold_left (fun (s0 : num) (x : num) => n_add s0 (n_pow x n2)) d n0) with s.
    change (EBin OExp (EReal s) half) with (EExp (EReal s) (EReal n_half)). rewrite <- Ep. destruct (simp n prefer p) as [w' o']. cbn in L. subst o'. reflexivity.
  - assert (E : toR s = Rsum r (fun i => Rsum c (fun j => (toR (f i j) * toR (f i j))%R))).
    { unfold s. rewrite (squares_sum toR X P2), (ex_of_Z _ _ X), Rplus_0_l, Ld, Rsum_grid. apply Rsum_ext. intros i Hi. apply Rsum_ext. intros j Hj. now rewrite Hd. }
    rewrite (root_value toR X Ph), E; [reflexivity|]. rewrite E. apply Rsum_nonneg. intros i. apply Rsum_nonneg. intros j. apply Rle_0_sqr.
Qed.
Print Assumptions c85_magnitude.

(** |(3 4)| is 5. *)
Example c85_case : Exact R_ops (fun x => x) /\ (forall x, @n_pow_exact R R_ops x (@n_of_Z R R_ops 2) = true) /\ (forall x, @n_pow_exact R R_ops x (@n_half R R_ops) = true) /\
  is_matrix (EMat 1 2 [3; 4]%R) 1 2 (fun _ j => if Nat.eqb j 0 then 3 else 4)%R /\
  exists m, @simplifies_to R R_ops (EMag (EMat 1 2 [3; 4]%R)) (EReal m) /\ m = 5%R.
Proof.
  assert (M : is_matrix (EMat 1 2 [3; 4]%R) 1 2 (fun _ j => if Nat.eqb j 0 then 3 else 4)%R).
  { exists [3; 4]%R. split; [reflexivity|]. split; [reflexivity|]. intros [|i] [|[|j]] Hi Hj; try lia; reflexivity. }
  split; [apply R_exact|]. split; [reflexivity|]. split; [reflexivity|]. split; [exact M|].
  assert (L : @simplifies_to R R_ops (EMat 1 2 [3; 4]%R) (EMat 1 2 [3; 4]%R)) by (exists 1; intros [|n] prefer Hn; [lia|reflexivity]).
  destruct (c85_magnitude R R_ops (fun x => x) R_exact (fun _ => eq_refl) (fun _ => eq_refl) _ _ _ _ _ L M) as (m & S & V).
  exists m. split; [exact S|]. rewrite V. unfold Rsum. cbn. replace (3 * 3 + (4 * 4 + 0) + 0)%R with (5 * 5)%R by ring. apply sqrt_square. lra.
Qed.
