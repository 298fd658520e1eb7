(** Runs of Simplify on quotients of products of powers. *)
From Coq Require Import String Bool Arith ZArith Lia Permutation List.
From Verif Require Import Base Num Expr Ghost Simplify Calculus Spec SpecPoly SpecProd SpecQuot TreeProofs MonadProofs FuelProofs PolyProofs ProdProofs.
Import ListNotations.
Open Scope Z_scope.
Open Scope list_scope.

Section Quot.
  Context {num : Type} {N : NumOps num}.
  Variables (lit : num -> Z -> Prop) (ok : Z -> Prop).
  Hypothesis IL : IntLits N lit ok.
  Hypothesis SG : signs N lit.
  Notation E := (expr num).
  Notation fac := (fac lit).
  Variable prefer : bool.

  Local Lemma okle x y : ok x -> Z.abs y <= Z.abs x -> ok y.
  Proof. apply (il_ok_le _ _ _ IL). Qed.
  Local Lemma lit_small z : Z.abs z <= 2 -> lit (n_of_Z z) z.
  Proof. intros H. apply (il_of_Z _ _ _ IL). eapply okle; [apply (il_ok_2 _ _ _ IL)|lia]. Qed.
  Local Lemma lit1 : lit n1 1.
  Proof. now apply lit_small. Qed.
  Local Lemma eqb_lit a b x y : lit a x -> lit b y -> n_eqb a b = (x =? y).
  Proof. apply (il_eqb _ _ _ IL). Qed.
  Local Lemma bindok {A B} (a : A) (k : A -> M B) : bind ([], Ok a) k = k a.
  Proof. cbn. now destruct (k a). Qed.
  Local Lemma simp_sub_lit n c d : simp (S (S n)) prefer (ESub (EReal c) (EReal d)) = ([], Ok (EReal (n_sub c d))).
  Proof. reflexivity. Qed.
  Local Lemma meq_var x y : m_eq (EVar x : E) (EVar y) = ([], Ok (String.eqb x y)).
  Proof. rewrite (m_eq_fac lit ok IL _ _ _ _ (fac_var lit x) (fac_var lit y)). cbn -[String.eqb]. now rewrite andb_true_r. Qed.

  Ltac facs H := apply fac_cases in H; destruct H as [(?c & ?z & -> & -> & ?Hc & ?Z0 & ?Z1)|[(?x & -> & ->)|(?x & ?c & ?k & -> & -> & ?Hc & ?K1 & ?K0)]].

  Lemma fac_name d n k : fac d (n, k) -> n <> None -> exists x, n = Some x /\
    ((d = EVar x /\ k = 1) \/ (exists c, d = EExp (EVar x) (EReal c) /\ lit c k /\ 1 < k)).
  Proof.
    intros H Hn. apply fac_cases in H. destruct H as [(c & z & -> & K & _)|[(x & -> & K)|(x & c & j & -> & K & Hc & K1 & K0)]]; injection K as -> ->.
    - congruence.
    - exists x. auto.
    - exists x. split; [reflexivity|]. right. exists c. repeat split; auto. lia.
  Qed.

  (** ** The entries of the list that the loop works on *)
  Inductive slot : E -> string * Z -> Prop :=
  | sl_exp x c z : lit c z -> ok z -> z <> 0 -> slot (EExp (EVar x) (EReal c)) (x, z)
  | sl_inv x c z : lit c z -> 1 < z -> slot (EExp (EVar x) (EMul (EReal (n_of_Z (-1))) (EReal c))) (x, - z).

  Lemma scan_hit (f : E -> M (option E)) pre v v' post : Forall (fun w => f w = ([], Ok None)) pre -> f v = ([], Ok (Some v')) ->
    scan f (pre ++ v :: post) = ([], Ok (Some (pre ++ v' :: post))).
  Proof.
    intros H K. induction H as [|w pre Hw H IH]; cbn [app scan].
    - now rewrite K, bindok.
    - now rewrite Hw, bindok, IH, bindok.
  Qed.
  Lemma scan_miss (f : E -> M (option E)) l : Forall (fun w => f w = ([], Ok None)) l -> scan f l = ([], Ok None).
  Proof. intros H. induction H as [|w l Hw H IH]; [reflexivity|]. cbn [scan]. now rewrite Hw, bindok, IH, bindok. Qed.

  (** A variable of the divisor passes numbers and other variables. *)
  Definition passes (x : string) (v : E) : Prop :=
    (exists c, v = EReal c) \/ (exists y m, y <> x /\ fac v (Some y, m)) \/ (exists y z, y <> x /\ slot v (y, z)).
  Lemma pass_var n x v : passes x v -> div_by_var (simp (S (S n)) prefer) x v = ([], Ok None).
  Proof.
    intros [(c & ->)|[(y & m & Hy & H)|(y & z & Hy & H)]]; [reflexivity| |].
    - apply fac_name in H; [|discriminate]. destruct H as (y' & Ey & H). injection Ey as <-. apply String.eqb_neq in Hy.
      destruct H as [(-> & _)|(c & -> & _)]; unfold div_by_var; cbn -[m_eq simp]; now rewrite meq_var, bindok, Hy.
    - apply String.eqb_neq in Hy.
      inversion H; subst; unfold div_by_var; cbn -[m_eq simp]; now rewrite meq_var, bindok, Hy.
  Qed.
  Lemma pass_exp n x k v : passes x v -> div_by_varexp (simp (S (S n)) prefer) (EVar x) k v = ([], Ok None).
  Proof.
    intros [(c & ->)|[(y & m & Hy & H)|(y & z & Hy & H)]]; [reflexivity| |].
    - apply fac_name in H; [|discriminate]. destruct H as (y' & Ey & H). injection Ey as <-. apply String.eqb_neq in Hy.
      destruct H as [(-> & _)|(c & -> & _)]; unfold div_by_varexp; cbn -[m_eq simp]; [reflexivity|now rewrite meq_var, bindok, Hy].
    - apply String.eqb_neq in Hy.
      inversion H; subst; unfold div_by_varexp; cbn -[m_eq simp]; now rewrite meq_var, bindok, Hy.
  Qed.

  (** One variable of the divisor. *)
  Lemma collect_hit n d x k e m pre post : fac d (Some x, k) -> fac e (Some x, m) -> ok m -> ok k ->
    (m = 1 /\ k = 1) \/ (1 < m /\ m <> k) -> Forall (passes x) pre ->
    exists v, div_collect (simp (S (S n)) prefer) (pre ++ e :: post) d = ([], Ok (pre ++ v :: post)) /\
      ((m = 1 /\ k = 1 /\ v = EReal n1) \/ (m <> k /\ slot v (x, m - k))).
  Proof.
    intros Hd He Om Ok Hmk Hp. apply fac_name in Hd; [|discriminate]. apply fac_name in He; [|discriminate].
    destruct Hd as (x1 & E1 & Hd). destruct He as (x2 & E2 & He). injection E1 as <-. injection E2 as <-.
    destruct Hd as [(-> & ->)|(c & -> & Hc & Kc)].
    - assert (F : Forall (fun w => div_by_var (simp (S (S n)) prefer) x w = ([], Base.Ok None)) pre) by (eapply Forall_impl; [|exact Hp]; intros; now apply pass_var).
      unfold div_collect. cbn -[scan_or_push div_by_var simp]. unfold scan_or_push.
      destruct He as [(-> & ->)|(c & -> & Hc & Kc)].
      + exists (EReal n1). split; [|left; auto]. rewrite (scan_hit _ _ _ (EReal n1) _ F); [now rewrite bindok|].
        unfold div_by_var. cbn -[m_eq simp]. now rewrite meq_var, bindok, String.eqb_refl.
      + exists (EExp (EVar x) (EReal (n_sub c n1))). split.
        * rewrite (scan_hit _ _ _ (EExp (EVar x) (EReal (n_sub c n1))) _ F); [now rewrite bindok|].
          unfold div_by_var. cbn -[m_eq simp]. rewrite meq_var, bindok, String.eqb_refl. unfold real. now rewrite simp_sub_lit, bindok.
        * right. split; [lia|]. assert (ok (m - 1)) by (eapply okle; [exact Om|lia]).
          constructor; [apply (il_sub _ _ _ IL); auto using lit1|auto|lia].
    - assert (F : Forall (fun w => div_by_varexp (simp (S (S n)) prefer) (EVar x) (EReal c) w = ([], Base.Ok None)) pre) by (eapply Forall_impl; [|exact Hp]; intros; now apply pass_exp).
      unfold div_collect. cbn -[scan_or_push div_by_varexp simp]. unfold scan_or_push.
      destruct He as [(-> & ->)|(b & -> & Hb & Kb)]; [lia|].
      exists (EExp (EVar x) (EReal (n_sub b c))). split.
      + rewrite (scan_hit _ _ _ (EExp (EVar x) (EReal (n_sub b c))) _ F); [now rewrite bindok|].
        unfold div_by_varexp. cbn -[m_eq simp]. rewrite meq_var, bindok, String.eqb_refl. now rewrite simp_sub_lit, bindok.
      + right. split; [lia|]. assert (ok (m - k)) by (destruct (Z.le_gt_cases k m); [eapply okle; [exact Om|lia]|eapply okle; [exact Ok|lia]]).
        constructor; [now apply (il_sub _ _ _ IL)|auto|lia].
  Qed.
  Lemma collect_push n d x k vals : fac d (Some x, k) -> Forall (passes x) vals ->
    exists v, div_collect (simp (S (S n)) prefer) vals d = ([], Ok (vals ++ [v])) /\ slot v (x, - k).
  Proof.
    intros Hd Hp. apply fac_name in Hd; [|discriminate]. destruct Hd as (x1 & E1 & Hd). injection E1 as <-.
    destruct Hd as [(-> & ->)|(c & -> & Hc & Kc)].
    - exists (EExp (EVar x) (EReal (n_of_Z (-1)))). split.
      + unfold div_collect. cbn -[scan_or_push div_by_var simp]. unfold scan_or_push. rewrite scan_miss; [reflexivity|].
        eapply Forall_impl; [|exact Hp]. intros; now apply pass_var.
      + constructor; [now apply lit_small|eapply okle; [apply (il_ok_2 _ _ _ IL)|lia]|lia].
    - exists (EExp (EVar x) (EMul (EReal (n_of_Z (-1))) (EReal c))). split.
      + unfold div_collect. cbn -[scan_or_push div_by_varexp simp]. unfold scan_or_push. rewrite scan_miss; [reflexivity|].
        eapply Forall_impl; [|exact Hp]. intros; now apply pass_exp.
      + now constructor.
  Qed.
  (** The number of the divisor. *)
  Definition no_real (v : E) : Prop := forall c, v <> EReal c.
  Lemma collect_number n c d pre post : Forall no_real pre ->
    div_collect (simp (S (S n)) prefer) (pre ++ EReal c :: post) (EReal d) = ([], Ok (pre ++ EReal (n_div c d) :: post)).
  Proof.
    intros Hp. unfold div_collect. cbn -[scan_or_push simp]. unfold scan_or_push.
    rewrite (scan_hit _ _ _ (EReal (n_div c d))); [now rewrite bindok| |reflexivity].
    eapply Forall_impl; [|exact Hp]. intros v Hv. destruct v; try reflexivity. now destruct (Hv c0).
  Qed.
  Lemma collect_new_number n d vals : Forall no_real vals ->
    div_collect (simp (S (S n)) prefer) vals (EReal d) = ([], Ok (vals ++ [EReal (n_div n1 d)])).
  Proof.
    intros Hp. unfold div_collect. cbn -[scan_or_push simp]. unfold scan_or_push. rewrite scan_miss; [reflexivity|].
    eapply Forall_impl; [|exact Hp]. intros v Hv. destruct v; try reflexivity. now destruct (Hv c).
  Qed.

  (** ** The loop over the divisor *)
  Definition net (x : string) (ts : list (string * Z)) : Z :=
    fold_right (fun t s => (if String.eqb x (fst t) then snd t else 0) + s) 0 ts.

  Lemma forall2_split {A B} (R : A -> B -> Prop) l m y : Forall2 R l m -> In y m ->
    exists l1 x l2 m1 m2, l = l1 ++ x :: l2 /\ m = m1 ++ y :: m2 /\ R x y /\ Forall2 R l1 m1 /\ Forall2 R l2 m2.
  Proof.
    intros H Hy. apply in_split in Hy. destruct Hy as (m1 & m2 & ->). apply Forall2_app_inv_r in H.
    destruct H as (l1 & l2' & F1 & F2 & ->). inversion F2; subst. eauto 12.
  Qed.
  Lemma first_real (vals : list E) : Forall no_real vals \/ exists pre c post, vals = pre ++ EReal c :: post /\ Forall no_real pre.
  Proof.
    induction vals as [|v vals IH]; [left; constructor|].
    assert (D : no_real v \/ exists c, v = EReal c) by (destruct v; try (left; intros ? ?; discriminate); right; eauto).
    destruct D as [D|(c & ->)]; [|right; exists [], c, vals; auto].
    destruct IH as [IH|(pre & c & post & -> & IH)]; [left; auto|]. right. exists (v :: pre), c, post. auto.
  Qed.
  Definition name_dec (a b : option string) : {a = b} + {a <> b}.
  Proof. decide equality. apply string_dec. Defined.
  Lemma in_names n k fs : In (n, k) fs -> In n (names fs).
  Proof. intros H. change n with (fst (n, k)). now apply in_map. Qed.
  Lemma names_in n fs : In n (names fs) -> exists k, In (n, k) fs.
  Proof. intros H. apply in_map_iff in H. destruct H as ([m k] & <- & H). exists k. exact H. Qed.
  Lemma facs_no_real l fs : Forall2 fac l fs -> ~ In None (names fs) -> Forall no_real l.
  Proof.
    intros H. induction H as [|e f l fs Hf H IH]; intros Hn; [constructor|]. cbn [names map In] in Hn. constructor; [|tauto].
    intros c ->. inversion Hf; subst; [cbn in Hn; tauto|]. match goal with K : power _ _ _ _ |- _ => inversion K end.
  Qed.
  Lemma slots_no_real l ts : Forall2 slot l ts -> Forall no_real l.
  Proof. intros H. induction H as [|e f l fs Hf H IH]; constructor; auto. intros c ->. inversion Hf. Qed.
  Lemma facs_pass x l fs : Forall2 fac l fs -> ~ In None (names fs) -> ~ In (Some x) (names fs) -> Forall (passes x) l.
  Proof.
    intros H. induction H as [|e [m k] l fs Hf H IH]; intros Hn Hx; [constructor|]. cbn [names map In fst] in *. constructor; [|tauto].
    right. left. destruct m as [y|]; [|tauto]. exists y, k. split; [intros ->; tauto|exact Hf].
  Qed.
  Lemma slots_pass x l ts : Forall2 slot l ts -> ~ In x (map fst ts) -> Forall (passes x) l.
  Proof.
    intros H. induction H as [|e [y k] l ts Hf H IH]; intros Hx; [constructor|]. cbn [map In fst] in *. constructor; [|tauto].
    right. right. exists y, k. split; [intros ->; tauto|exact Hf].
  Qed.
  Lemma reals_pass x rs : Forall (passes x) (map EReal rs).
  Proof. apply Forall_forall. intros v Hv. apply in_map_iff in Hv. destruct Hv as (c & <- & _). left. eauto. Qed.
  Lemma amount_mid n f a b : amount n (a ++ f :: b) = join n (amount n [f]) (amount n (a ++ b)).
  Proof.
    change (f :: b) with ([f] ++ b). rewrite !amount_app. destruct n; unfold join; lia.
  Qed.
  Lemma amount_some_one x y k : amount (Some x) [(Some y, k)] = if String.eqb x y then k else 0.
  Proof. cbn -[String.eqb Z.add]. destruct (String.eqb x y); lia. Qed.

  Lemma loop n : forall dl gl, Forall2 fac dl gl -> NoDup (names gl) -> roomy ok gl ->
    forall vals i base us fu ps tp,
    Permutation vals (map EReal (repeat n1 i ++ base) ++ us ++ ps) ->
    Forall2 fac us fu -> NoDup (names fu) -> ~ In None (names fu) -> roomy ok fu ->
    Forall2 slot ps tp -> NoDup (map fst tp) ->
    (forall x, In x (map fst tp) -> ~ In (Some x) (names gl) /\ ~ In (Some x) (names fu)) ->
    (forall x m k, In (Some x, m) fu -> In (Some x, k) gl -> (m = 1 /\ k = 1) \/ (1 < m /\ m <> k)) ->
    (In None (names gl) -> base = [] \/ ((exists c, base = [c]) /\ i = O /\ forall x, ~ (In (Some x, 1) fu /\ In (Some x, 1) gl))) ->
    exists vals' j base' us' fu' ps' tp',
      foldM (div_collect (simp (S (S n)) prefer)) vals dl = ([], Ok vals') /\
      Permutation vals' (map EReal (repeat n1 j ++ base') ++ us' ++ ps') /\
      Forall2 fac us' fu' /\ NoDup (names fu') /\ ~ In None (names fu') /\
      Forall2 slot ps' tp' /\ NoDup (map fst tp') /\ (forall x, In x (map fst tp') -> ~ In (Some x) (names fu')) /\
      (forall x, amount (Some x) fu' + net x tp' = amount (Some x) fu + net x tp - amount (Some x) gl) /\
      (~ In None (names gl) -> base' = base) /\ (forall d, In (EReal d) dl -> base' = [n_div (hd n1 base) d]).
  Proof.
    intros dl gl H. induction H as [|d [m k] dl gl Hd H IH]; intros Hnd Hok vals i base us fu ps tp HP Hus Nfu Xfu Ofu Hps Ntp Hfr Hc Hb.
    - exists vals, i, base, us, fu, ps, tp. split; [reflexivity|]. repeat (split; [assumption|]). split; [intros x Hx; now apply Hfr|].
      split; [intros x; rewrite amount_nil; cbn [unit]; lia|]. split; [reflexivity|intros d []].
    - cbn [names map fst] in Hnd. fold (names gl) in Hnd. apply NoDup_cons_iff in Hnd. destruct Hnd as [Hm Hnd].
      pose proof (facs_fine lit _ _ H) as Fg. pose proof (fac_fine lit _ _ Hd) as Fd.
      assert (Hok' : roomy ok gl).
      { intros q. eapply okle; [apply (Hok q)|]. change ((m, k) :: gl) with ([(m, k)] ++ gl). rewrite amount_swap.
        apply amount_le; [repeat constructor; exact Fd|exact Fg]. }
      assert (Okk : ok k).
      { specialize (Hok m). rewrite amount_cons in Hok. cbn [fst snd] in Hok. rewrite name_eqb_refl in Hok.
        rewrite (amount_notin m gl Hm), join_unit_r in Hok. exact Hok. }
      cbn [foldM]. destruct m as [x|].
      + (* a variable *)
        destruct (in_dec name_dec (Some x) (names fu)) as [Hx|Hx].
        * apply names_in in Hx. destruct Hx as (m & Hx).
          destruct (forall2_split _ _ _ _ Hus Hx) as (u1 & e & u2 & f1 & f2 & -> & -> & He & F1 & F2).
          rewrite names_app in Nfu, Xfu. cbn [names map fst] in Nfu, Xfu. fold (names f2) in Nfu, Xfu.
          pose proof (NoDup_remove _ _ _ Nfu) as [Nf Xf]. fold (names f1) in Nf, Xf. rewrite <- names_app in Nf, Xf.
          assert (Xn : ~ In None (names (f1 ++ f2))) by (rewrite names_app, in_app_iff; rewrite in_app_iff in Xfu; cbn in Xfu; tauto).
          assert (Ff : Forall fine (f1 ++ (Some x, m) :: f2)).
          { apply Forall_app. split; [eapply facs_fine; eauto|]. constructor; [eapply fac_fine; eauto|eapply facs_fine; eauto]. }
          assert (Om : ok m).
          { specialize (Ofu (Some x)). rewrite amount_mid, (amount_notin _ _ Xf), join_unit_r, amount_one in Ofu. cbn [fst] in Ofu.
            now rewrite name_eqb_refl in Ofu. }
          assert (Of : roomy ok (f1 ++ f2)).
          { intros q. eapply okle; [apply (Ofu q)|]. rewrite amount_mid. apply Forall_app in Ff. destruct Ff as [A1 A2]. inversion A2; subst.
            assert (A3 : Forall fine (f1 ++ f2)) by (apply Forall_app; auto). pose proof (amount_le q (f1 ++ f2) [(Some x, m)] ltac:(repeat constructor; auto) A3) as L.
            rewrite (amount_app q (f1 ++ f2) [(Some x, m)]), join_comm in L. exact L. }
          assert (Ie : In e vals) by (apply (Permutation_in _ (Permutation_sym HP)); rewrite !in_app_iff; cbn; tauto).
          apply in_split in Ie. destruct Ie as (pre & post & ->).
          assert (HP' : Permutation (pre ++ post) (map EReal (repeat n1 i ++ base) ++ (u1 ++ u2) ++ ps)).
          { rewrite <- !app_assoc in HP. cbn [app] in HP. rewrite app_assoc in HP. apply Permutation_app_inv in HP. rewrite <- !app_assoc in HP. now rewrite <- app_assoc. }
          assert (Fp : Forall (passes x) pre).
          { assert (A : Forall (passes x) (pre ++ post)).
            { eapply Permutation_Forall; [apply Permutation_sym; exact HP'|]. apply Forall_app. split; [apply reals_pass|]. apply Forall_app. split.
              - apply (facs_pass x _ (f1 ++ f2)); auto. now apply Forall2_app.
              - apply (slots_pass x _ tp Hps). intros K. apply Hfr in K. destruct K as [K _]. apply K. now left. }
            apply Forall_app in A. tauto. }
          assert (Hmk : (m = 1 /\ k = 1) \/ (1 < m /\ m <> k)).
          { apply (Hc x); [apply in_or_app; right; now left|now left]. }
          destruct (collect_hit n d x k e m pre post Hd He Om Okk Hmk Fp) as (v & Ev & Hv). rewrite Ev, bindok.
          assert (Hfr' : forall y, In y (map fst tp) -> ~ In (Some y) (names gl) /\ ~ In (Some y) (names (f1 ++ f2))).
          { intros y Hy. destruct (Hfr y Hy) as [A B]. cbn in A. split; [tauto|]. rewrite names_app in *. cbn in B. rewrite in_app_iff in *. cbn in B. tauto. }
          assert (Hc' : forall y a b, In (Some y, a) (f1 ++ f2) -> In (Some y, b) gl -> (a = 1 /\ b = 1) \/ (1 < a /\ a <> b)).
          { intros y a b Hy Hg. apply (Hc y); [rewrite in_app_iff in *; cbn; tauto|now right]. }
          destruct Hv as [(-> & -> & ->)|(Nmk & Sv)].
          -- destruct (IH Hnd Hok' (pre ++ EReal n1 :: post) (S i) base (u1 ++ u2) (f1 ++ f2) ps tp) as (vals' & j & base' & us' & fu' & ps' & tp' & R1 & R2 & R3 & R4 & R5 & R6 & R7 & R8 & R9 & R10 & R11);
               [cbn [repeat map app]; now apply Permutation_sym, Permutation_cons_app, Permutation_sym|now apply Forall2_app|exact Nf|exact Xn|exact Of|exact Hps|exact Ntp|exact Hfr'|exact Hc'| |].
             ++ intros Hn. destruct Hb as [Hb|(Hb1 & Hb2 & Hb3)]; [now right|now left|]. exfalso. apply (Hb3 x). split; [apply in_or_app; right; now left|now left].
             ++ exists vals', j, base', us', fu', ps', tp'. split; [exact R1|]. repeat (split; [assumption|]). split; [|split].
                ** intros y. rewrite R9, amount_mid, amount_one, amount_cons. cbn [fst snd join name_eqb]. destruct (String.eqb y x); cbn [join unit]; lia.
                ** intros Hn. apply R10. intros Hi. apply Hn. now right.
                ** intros d' [Hd'|Hd']; [|now apply R11]. subst d. inversion Hd; subst. match goal with K : power _ _ _ _ |- _ => inversion K end.
          -- destruct (IH Hnd Hok' (pre ++ v :: post) i base (u1 ++ u2) (f1 ++ f2) (v :: ps) ((x, m - k) :: tp)) as (vals' & j & base' & us' & fu' & ps' & tp' & R1 & R2 & R3 & R4 & R5 & R6 & R7 & R8 & R9 & R10 & R11);
               [|now apply Forall2_app|exact Nf|exact Xn|exact Of|now constructor| | |exact Hc'| |].
             ++ rewrite !app_assoc. apply Permutation_elt. rewrite <- !app_assoc. now rewrite <- !app_assoc in HP'.
             ++ cbn [map fst]. constructor; [|exact Ntp]. intros K. apply Hfr in K. destruct K as [K _]. apply K. now left.
             ++ intros y [<-|Hy]; [cbn [fst]; now split|now apply Hfr'].
             ++ intros Hn. destruct Hb as [Hb|(Hb1 & Hb2 & Hb3)]; [now right|now left|]. right. split; [exact Hb1|]. split; [exact Hb2|].
                intros y [A B]. apply (Hb3 y). rewrite in_app_iff in *. cbn. tauto.
             ++ exists vals', j, base', us', fu', ps', tp'. split; [exact R1|]. repeat (split; [assumption|]). split; [|split].
                ** intros y. rewrite R9, amount_mid, amount_one, amount_cons. cbn [fst snd join name_eqb net fold_right]. fold (net y tp). destruct (String.eqb y x); cbn [join unit]; lia.
                ** intros Hn. apply R10. intros Hi. apply Hn. now right.
                ** intros d' [Hd'|Hd']; [|now apply R11]. subst d. inversion Hd; subst. match goal with K : power _ _ _ _ |- _ => inversion K end.
        * assert (Fp : Forall (passes x) vals).
          { eapply Permutation_Forall; [apply Permutation_sym; exact HP|]. apply Forall_app. split; [apply reals_pass|]. apply Forall_app. split.
            - now apply (facs_pass x _ fu).
            - apply (slots_pass x _ tp Hps). intros K. apply Hfr in K. destruct K as [K _]. apply K. now left. }
          destruct (collect_push n d x k vals Hd Fp) as (v & Ev & Sv). rewrite Ev, bindok.
          destruct (IH Hnd Hok' (vals ++ [v]) i base us fu (v :: ps) ((x, - k) :: tp)) as (vals' & j & base' & us' & fu' & ps' & tp' & R1 & R2 & R3 & R4 & R5 & R6 & R7 & R8 & R9 & R10 & R11);
            [|exact Hus|exact Nfu|exact Xfu|exact Ofu|now constructor| | | | |].
          -- rewrite !app_assoc. apply Permutation_elt. rewrite app_nil_r. now rewrite <- !app_assoc.
          -- cbn [map fst]. constructor; [|exact Ntp]. intros K. apply Hfr in K. destruct K as [K _]. apply K. now left.
          -- intros y [<-|Hy]; [cbn [fst]; now split|]. destruct (Hfr y Hy) as [A B]. cbn in A. tauto.
          -- intros y a b Hy Hg. apply (Hc y); [exact Hy|now right].
          -- intros Hn. destruct Hb as [Hb|(Hb1 & Hb2 & Hb3)]; [now right|now left|]. right. split; [exact Hb1|]. split; [exact Hb2|].
             intros y [A B]. apply (Hb3 y). split; [exact A|now right].
          -- exists vals', j, base', us', fu', ps', tp'. split; [exact R1|]. repeat (split; [assumption|]). split; [|split].
             ++ intros y. rewrite R9, amount_cons. cbn [fst snd name_eqb net fold_right]. fold (net y tp). destruct (String.eqb y x); cbn [join]; lia.
             ++ intros Hn. apply R10. intros Hi. apply Hn. now right.
             ++ intros d' [Hd'|Hd']; [|now apply R11]. subst d. inversion Hd; subst. match goal with K : power _ _ _ _ |- _ => inversion K end.
      + (* the number *)
        assert (Ed : exists c, d = EReal c) by (inversion Hd; subst; eauto). destruct Ed as (dd & ->).
        assert (Nr : forall c, In (EReal c) (map EReal (repeat n1 i ++ base) ++ us ++ ps) -> In c (repeat n1 i ++ base)).
        { intros c Hi. apply in_app_or in Hi. destruct Hi as [Hi|Hi].
          - apply in_map_iff in Hi. destruct Hi as (c' & K & Hi). injection K as ->. exact Hi.
          - exfalso. assert (A : Forall no_real (us ++ ps)) by (apply Forall_app; split; [eapply facs_no_real; eauto|eapply slots_no_real; eauto]).
            rewrite Forall_forall in A. now apply (A _ Hi c). }
        assert (D : exists vals1 i1, div_collect (simp (S (S n)) prefer) vals (EReal dd) = ([], Ok vals1) /\
          Permutation vals1 (map EReal (repeat n1 i1 ++ [n_div (hd n1 base) dd]) ++ us ++ ps)).
        { destruct (first_real vals) as [F|(pre & c & post & -> & F)].
          - assert (Z0 : repeat n1 i ++ base = []).
            { destruct (repeat n1 i ++ base) as [|c l] eqn:K; [reflexivity|]. exfalso. rewrite Forall_forall in F. apply (F (EReal c)) with c; [|reflexivity].
              apply (Permutation_in _ (Permutation_sym HP)). now left. }
            apply app_eq_nil in Z0. destruct Z0 as [Z1 ->]. rewrite Z1 in HP. exists (vals ++ [EReal (n_div n1 dd)]), O. split; [now apply collect_new_number|].
            cbn [repeat map app hd] in *. apply Permutation_sym, Permutation_cons_app. rewrite app_nil_r. now apply Permutation_sym.
          - pose proof (Permutation_in (EReal c) HP ltac:(apply in_or_app; right; now left)) as Hi. apply Nr in Hi.
            rewrite collect_number by exact F.
            destruct Hb as [->|((b & ->) & -> & _)]; [now left| |].
            + rewrite app_nil_r in *. apply repeat_spec in Hi as Ec. subst c. destruct i as [|i]; [destruct Hi|]. cbn [repeat map app] in HP.
              exists (pre ++ EReal (n_div n1 dd) :: post), i. split; [reflexivity|]. cbn [hd].
              rewrite map_app. cbn [map]. rewrite <- app_assoc. cbn [app]. apply Permutation_elt.
              apply Permutation_sym, Permutation_cons_app_inv, Permutation_sym in HP. exact HP.
            + cbn [repeat app] in Hi. destruct Hi as [->|[]]. exists (pre ++ EReal (n_div c dd) :: post), O. split; [reflexivity|].
              cbn [repeat app map hd] in *. apply Permutation_sym, Permutation_cons_app, Permutation_sym.
              now apply Permutation_sym, Permutation_cons_app_inv, Permutation_sym in HP. }
        destruct D as (vals1 & i1 & -> & HP1). rewrite bindok.
        destruct (IH Hnd Hok' vals1 i1 [n_div (hd n1 base) dd] us fu ps tp) as (vals' & j & base' & us' & fu' & ps' & tp' & R1 & R2 & R3 & R4 & R5 & R6 & R7 & R8 & R9 & R10 & R11);
          [exact HP1|exact Hus|exact Nfu|exact Xfu|exact Ofu|exact Hps|exact Ntp| | |intros Hn; contradiction|].
        * intros y Hy. destruct (Hfr y Hy) as [A B]. cbn in A. tauto.
        * intros y a b Hy Hg. apply (Hc y); [exact Hy|now right].
        * exists vals', j, base', us', fu', ps', tp'. split; [exact R1|]. do 7 (split; [assumption|]). split; [|split].
          -- intros y. rewrite R9, amount_cons. cbn [fst snd name_eqb]. reflexivity.
          -- intros Hn. exfalso. apply Hn. now left.
          -- intros d' [Hd'|Hd']; [injection Hd' as <-; now apply R10|]. exfalso. apply Hm.
             clear - H Hd'. induction H as [|e f l fs Hf H IH]; [destruct Hd'|]. destruct Hd' as [->|Hd']; [|right; now apply IH].
             left. inversion Hf; subst; [reflexivity|]. match goal with K : power _ _ _ _ |- _ => inversion K end.
  Qed.

  (** ** Dividend and divisor of the result *)
  Definition above (v : E) : list E := match div_place v with Some (inl x) => [x] | _ => [] end.
  Definition below (v : E) : list E := match div_place v with Some (inr x) => [x] | _ => [] end.
  Lemma place_flat l : partition_place l = (flat_map above l, flat_map below l).
  Proof.
    induction l as [|v l IH]; [reflexivity|]. cbn [partition_place flat_map]. rewrite IH.
    assert (A : above v = match div_place v with Some (inl x) => [x] | _ => [] end) by reflexivity.
    assert (B : below v = match div_place v with Some (inr x) => [x] | _ => [] end) by reflexivity.
    rewrite A, B. destruct (div_place v) as [[x|x]|]; reflexivity.
  Qed.
  Definition kept (c : num) : list E := if n_eqb c n1 then [] else [EReal c].
  Lemma place_reals rs : flat_map above (map EReal rs) = flat_map kept rs /\ flat_map below (map EReal rs) = [].
  Proof.
    induction rs as [|c rs [I1 I2]]; [auto|]. cbn [map flat_map]. rewrite I1, I2. unfold above, below, kept, div_place. cbn -[n1].
    destruct (n_eqb c n1); auto.
  Qed.
  Lemma kept_ones i : flat_map kept (repeat n1 i) = [].
  Proof. induction i as [|i IH]; [reflexivity|]. cbn [repeat flat_map]. rewrite IH. unfold kept. now rewrite (eqb_lit _ _ _ _ lit1 lit1). Qed.

  Lemma place_fac e n k : fac e (n, k) -> n <> None -> above e = [e] /\ below e = [] /\ strip_exp e = e.
  Proof.
    intros H Hn. apply fac_name in H; [|exact Hn]. destruct H as (x & _ & [(-> & ->)|(c & -> & Hc & Hk)]).
    - repeat split.
    - unfold above, below, div_place, strip_exp. cbn -[n0 n1]. rewrite (SG _ _ Hc), (eqb_lit _ _ _ _ Hc lit1).
      assert (L : (k <? 0) = false) by (apply Z.ltb_ge; lia). assert (Q : (k =? 1) = false) by (apply Z.eqb_neq; lia). now rewrite L, Q.
  Qed.
  Lemma place_facs us fu : Forall2 fac us fu -> ~ In None (names fu) ->
    flat_map above us = us /\ flat_map below us = [] /\ map strip_exp us = us.
  Proof.
    intros H. induction H as [|e [n k] us fu He H IH]; intros Hn; [auto|]. cbn [names map In fst] in Hn.
    destruct IH as (I1 & I2 & I3); [tauto|]. destruct (place_fac e n k He) as (P1 & P2 & P3); [intros ->; tauto|].
    cbn [flat_map map]. rewrite I1, I2, I3, P1, P2, P3. auto.
  Qed.

  Definition ups (tp : list (string * Z)) : list factor := flat_map (fun t => if 0 <? snd t then [(Some (fst t), snd t)] else []) tp.
  Definition downs (tp : list (string * Z)) : list factor := flat_map (fun t => if snd t <? 0 then [(Some (fst t), - snd t)] else []) tp.
  Lemma strip_power x c z : lit c z -> 0 < z -> fac (strip_exp (EExp (EVar x) (EReal c))) (Some x, z).
  Proof.
    intros Hc Hz. unfold strip_exp. cbn -[n1]. rewrite (eqb_lit _ _ _ _ Hc lit1). destruct (Z.eqb_spec z 1) as [->|K]; [apply fac_var|now apply fac_exp].
  Qed.
  Lemma place_slot v x z : slot v (x, z) -> Forall2 fac (map strip_exp (above v)) (ups [(x, z)]) /\ Forall2 fac (map strip_exp (below v)) (downs [(x, z)]).
  Proof.
    intros H. unfold ups, downs. cbn [flat_map fst snd]. rewrite !app_nil_r. inversion H; subst.
    - unfold above, below, div_place. cbn -[n0 n1 strip_exp nm1]. rewrite (SG c z) by assumption.
      destruct (Z.ltb_spec z 0), (Z.ltb_spec 0 z); try lia; cbn [map]; split; try apply Forall2_nil; (apply Forall2_cons; [|apply Forall2_nil]).
      + replace (- z) with (z * -1) by lia. apply strip_power; [|lia]. assert (ok (z * -1)) by (eapply okle; [eassumption|lia]).
        apply (il_mul _ _ _ IL); auto. now apply lit_small.
      + now apply strip_power.
    - assert (Lm : lit (n_of_Z (-1)) (-1)) by now apply lit_small.
      unfold above, below, div_place. cbn -[n0 n1 strip_exp nm1]. rewrite (SG _ _ Lm). change (-1 <? 0) with true. cbn -[n0 n1 strip_exp nm1].
      assert (L1 : (- z0 <? 0) = true) by (apply Z.ltb_lt; lia). assert (L2 : (0 <? - z0) = false) by (apply Z.ltb_ge; lia). rewrite L1, L2.
      split; [apply Forall2_nil|]. apply Forall2_cons; [|apply Forall2_nil]. rewrite Z.opp_involutive. apply strip_power; [assumption|lia].
  Qed.
  Lemma place_slots ps tp : Forall2 slot ps tp ->
    Forall2 fac (map strip_exp (flat_map above ps)) (ups tp) /\ Forall2 fac (map strip_exp (flat_map below ps)) (downs tp).
  Proof.
    intros H. induction H as [|v [x z] ps tp Hv H [I1 I2]]; [split; constructor|]. destruct (place_slot v x z Hv) as [P1 P2].
    cbn [flat_map]. rewrite !map_app. unfold ups, downs in *. cbn [flat_map] in *. rewrite app_nil_r in P1, P2. split; now apply Forall2_app.
  Qed.
  Lemma ups_names tp n : In n (names (ups tp)) -> exists x, n = Some x /\ In x (map fst tp).
  Proof.
    intros H. apply names_in in H. destruct H as (k & H). apply in_flat_map in H. destruct H as ([x z] & Hi & H). cbn [fst snd] in H.
    destruct (0 <? z); [|destruct H]. destruct H as [H|[]]. injection H as <- <-. exists x. split; [reflexivity|]. change x with (fst (x, z)). now apply in_map.
  Qed.
  Lemma downs_names tp n : In n (names (downs tp)) -> exists x, n = Some x /\ In x (map fst tp).
  Proof.
    intros H. apply names_in in H. destruct H as (k & H). apply in_flat_map in H. destruct H as ([x z] & Hi & H). cbn [fst snd] in H.
    destruct (z <? 0); [|destruct H]. destruct H as [H|[]]. injection H as <- <-. exists x. split; [reflexivity|]. change x with (fst (x, z)). now apply in_map.
  Qed.
  Lemma net_absent x tp : ~ In x (map fst tp) -> net x tp = 0.
  Proof.
    induction tp as [|[y z] tp IH]; intros H; [reflexivity|]. cbn [map In fst] in H. cbn [net fold_right fst snd]. fold (net x tp). rewrite IH by tauto.
    destruct (String.eqb_spec x y) as [->|_]; [tauto|reflexivity].
  Qed.
  Lemma ups_spec tp : NoDup (map fst tp) -> NoDup (names (ups tp)) /\ forall x, amount (Some x) (ups tp) = Z.max 0 (net x tp).
  Proof.
    induction tp as [|[y z] tp IH]; intros H; [split; [constructor|reflexivity]|]. cbn [map fst] in H. apply NoDup_cons_iff in H. destruct H as [Hy H].
    destruct (IH H) as [I1 I2]. assert (Ny : ~ In (Some y) (names (ups tp))).
    { intros K. apply ups_names in K. destruct K as (x & K & Hx). injection K as <-. contradiction. }
    unfold ups. cbn [flat_map fst snd]. fold (ups tp). destruct (Z.ltb_spec 0 z) as [L|L]; cbn [app].
    - split; [cbn [names map fst]; now constructor|]. intros x. rewrite amount_cons, I2. cbn [fst snd name_eqb net fold_right]. fold (net x tp).
      destruct (String.eqb_spec x y) as [->|_]; [|f_equal]. rewrite (net_absent y tp Hy). cbn [join]. lia.
    - split; [exact I1|]. intros x. rewrite I2. cbn [net fold_right fst snd]. fold (net x tp). destruct (String.eqb_spec x y) as [->|_]; [|reflexivity].
      rewrite (net_absent y tp Hy). lia.
  Qed.
  Lemma downs_spec tp : NoDup (map fst tp) -> NoDup (names (downs tp)) /\ forall x, amount (Some x) (downs tp) = Z.max 0 (- net x tp).
  Proof.
    induction tp as [|[y z] tp IH]; intros H; [split; [constructor|reflexivity]|]. cbn [map fst] in H. apply NoDup_cons_iff in H. destruct H as [Hy H].
    destruct (IH H) as [I1 I2]. assert (Ny : ~ In (Some y) (names (downs tp))).
    { intros K. apply downs_names in K. destruct K as (x & K & Hx). injection K as <-. contradiction. }
    unfold downs. cbn [flat_map fst snd]. fold (downs tp). destruct (Z.ltb_spec z 0) as [L|L]; cbn [app].
    - split; [cbn [names map fst]; now constructor|]. intros x. rewrite amount_cons, I2. cbn [fst snd name_eqb net fold_right]. fold (net x tp).
      destruct (String.eqb_spec x y) as [->|_]; [|f_equal]. rewrite (net_absent y tp Hy). cbn [join]. lia.
    - split; [exact I1|]. intros x. rewrite I2. cbn [net fold_right fst snd]. fold (net x tp). destruct (String.eqb_spec x y) as [->|_]; [|reflexivity].
      rewrite (net_absent y tp Hy). lia.
  Qed.

  (* no step is flagged *)
  Lemma no_bad_place origs fo v : Forall2 fac origs fo -> (exists c, v = EReal c) \/ (exists f, fac v f) \/ (exists t, slot v t) -> div_place_bad origs v = [].
  Proof.
    intros Ho [(c & ->)|[(f & Hf)|(t & Ht)]]; [reflexivity|facs Hf; reflexivity|]. inversion Ht; subst; [reflexivity|].
    assert (Lm : lit (n_of_Z (-1)) (-1)) by now apply lit_small.
    unfold div_place_bad. cbn -[n0 nm1 existsb]. rewrite (SG _ _ Lm). change (-1 <? 0) with true. cbn -[n0 nm1 existsb].
    rewrite (eqb_lit _ _ _ _ Lm (lit_small (-1) ltac:(lia) : lit nm1 (-1))). cbn -[existsb].
    replace (existsb _ origs) with false; [reflexivity|]. symmetry. clear - Ho. induction Ho as [|e f l fs Hf Ho IH]; [reflexivity|].
    cbn [existsb]. rewrite IH, orb_false_r. facs Hf; try reflexivity. cbn. now rewrite andb_false_r.
  Qed.

  (** ** The quotient of two products *)
  Lemma amount_perm n a b : Permutation a b -> amount n a = amount n b.
  Proof.
    intros H. induction H as [|f a b H IH|f g a|a b c H1 IH1 H2 IH2]; [reflexivity|rewrite !amount_cons, IH; reflexivity| |congruence].
    change (f :: g :: a) with ([f; g] ++ a). change (g :: f :: a) with ([g; f] ++ a). rewrite !(amount_app n _ a). f_equal.
    change [f; g] with ([f] ++ [g]). change [g; f] with ([g] ++ [f]). apply amount_swap.
  Qed.
  Lemma names_perm a b : Permutation a b -> Permutation (names a) (names b).
  Proof. apply Permutation_map. Qed.

  Lemma factors_flat (a : E) fa : product lit a fa -> factors a = flat OMul a.
  Proof. intros H. destruct H as [e f Hf|a b fa fb Ha Hb]; [|reflexivity]. facs Hf; reflexivity. Qed.
  Lemma split_facs l fs : Forall2 fac l fs -> split_div l = (l, []).
  Proof.
    intros H. unfold split_div. f_equal; induction H as [|e f l fs Hf H IH]; try reflexivity; cbn [map flat_map]; rewrite IH; facs Hf; reflexivity.
  Qed.
  Lemma number_first l fs : Forall2 fac l fs -> NoDup (names fs) -> exists base us fu,
    Permutation l (map EReal base ++ us) /\ Forall2 fac us fu /\ NoDup (names fu) /\ ~ In None (names fu) /\
    (forall x, amount (Some x) fu = amount (Some x) fs) /\ (forall n k, In (n, k) fu -> In (n, k) fs) /\ lit (hd n1 base) (amount None fs) /\
    (base = [] \/ (exists c, base = [c] /\ amount None fs <> 1)).
  Proof.
    intros H D. destruct (in_dec name_dec None (names fs)) as [Hi|Hi].
    - apply names_in in Hi. destruct Hi as (z & Hz). destruct (forall2_split _ _ _ _ H Hz) as (l1 & e & l2 & f1 & f2 & -> & -> & He & F1 & F2).
      assert (Ec : exists c, e = EReal c /\ lit c z /\ z <> 1) by (inversion He; subst; eauto). destruct Ec as (c & -> & Hc & Hz1).
      rewrite names_app in D. cbn [names map fst] in D. fold (names f2) in D. pose proof (NoDup_remove _ _ _ D) as [D1 D2]. rewrite <- names_app in D1, D2.
      exists [c], (l1 ++ l2), (f1 ++ f2). split; [cbn [map app]; apply Permutation_sym, Permutation_middle|]. split; [now apply Forall2_app|]. split; [exact D1|]. split; [exact D2|].
      split; [intros x; rewrite amount_mid, amount_one; reflexivity|].
      assert (A : amount None (f1 ++ (None, z) :: f2) = z) by (rewrite amount_mid, (amount_notin _ _ D2), amount_one; cbn [fst snd name_eqb]; apply join_unit_r).
      split; [intros n k Hk; rewrite in_app_iff in *; cbn; tauto|]. split; [exact (eq_ind_r (lit c) Hc A)|]. right. exists c. split; [reflexivity|].
      intros Hn. apply Hz1. exact (eq_trans (eq_sym A) Hn).
    - exists [], l, fs. split; [reflexivity|]. repeat (split; [assumption||reflexivity|]). split; [auto|]. split; [rewrite (amount_notin _ _ Hi); exact lit1|now left].
  Qed.

  Lemma one_or_build_spec (l : list E) : match one_or_build l with
    | None => l = []
    | Some p => l <> [] /\ exists d, tree_over OMul d l p
    end.
  Proof.
    destruct l as [|a [|b l]]; [reflexivity|cbn; split; [discriminate|exists O; constructor]|].
    destruct (build_spec OMul (a :: b :: l)) as (x & y & B & _); [cbn; lia|]. unfold one_or_build.
    rewrite B. split; [discriminate|]. eexists. now apply build_tree.
  Qed.

  Theorem quotient_yields a b fs gs : easy_product lit a fs -> easy_product lit b gs -> roomy ok fs -> roomy ok gs ->
    cancelling fs gs -> (exists x, In (Some x) (names (fs ++ gs))) ->
    exists nl dl r, yields prefer (EDiv a b) r /\ fraction_of nl dl r /\ cancelled lit nl dl fs gs.
  Proof.
    intros Ha Hb Wa Wb (Hc & Hcn) (x0 & Hx0).
    destruct (easy_yields lit ok IL prefer a fs Ha Wa) as (a' & (n & Ya) & (ta & Sa & Ra)).
    destruct (easy_yields lit ok IL prefer b gs Hb Wb) as (b' & (m & Yb) & (tb & Sb & Rb)).
    pose proof (settled_product lit _ _ Sa) as Pa. pose proof (settled_product lit _ _ Sb) as Pb.
    pose proof (roomy_settles ok _ _ Wa Ra) as Oa. pose proof (roomy_settles ok _ _ Wb Rb) as Ob.
    assert (Da : NoDup (names ta)) by (destruct Sa as (? & _ & D & _); exact D). assert (Db : NoDup (names tb)) by (destruct Sb as (? & _ & D & _); exact D).
    pose proof (product_flat lit _ _ Pa) as Fa. pose proof (product_flat lit _ _ Pb) as Fb. set (la := flat OMul a') in *. set (lb := flat OMul b') in *.
    destruct (number_first la ta Fa Da) as (base & us & fu & HP & Fu & Du & Xu & Au & Iu & Lb & Hbase).
    assert (Ou : roomy ok fu).
    { intros q. eapply okle; [apply (Oa q)|]. destruct q as [y|]; [now rewrite Au|]. rewrite (amount_notin _ _ Xu). cbn [unit].
      pose proof (amount_fine None ta (facs_fine lit _ _ Fa)) as A. cbn in A. lia. }
    destruct (loop (n + m) lb tb Fb Db Ob la O base us fu [] []) as (vals' & j & base' & us' & fu' & ps' & tp' & R1 & R2 & R3 & R4 & R5 & R6 & R7 & R8 & R9 & R10 & R11);
      [cbn [repeat app]; now rewrite app_nil_r|exact Fu|exact Du|exact Xu|exact Ou|constructor|constructor|intros x []| | |].
    { intros x p q Hp Hq. pose proof (amount_nodup _ _ _ Da (Iu _ _ Hp)) as Ap. pose proof (amount_nodup _ _ _ Db Hq) as Aq.
      rewrite (proj1 Ra) in Ap. rewrite (proj1 Rb) in Aq. specialize (Hc x). cbv zeta in Hc. rewrite Ap, Aq in Hc.
      pose proof (facs_fine lit _ _ Fa) as G1. pose proof (facs_fine lit _ _ Fb) as G2. rewrite Forall_forall in G1, G2.
      specialize (G1 _ (Iu _ _ Hp)). specialize (G2 _ Hq). unfold fine in G1, G2. cbn in G1, G2. lia. }
    { intros Hn. destruct Hbase as [->|(c & -> & Hne)]; [now left|]. right. split; [eauto|]. split; [reflexivity|]. intros x [H1 H2].
      rewrite (proj1 Ra) in Hne. destruct Hcn as [Hcn|[Hcn|Hcn]]; [contradiction| |].
      - apply names_in in Hn. destruct Hn as (z & Hz). pose proof (amount_nodup _ _ _ Db Hz) as A. rewrite (proj1 Rb), Hcn in A.
        destruct (forall2_split _ _ _ _ Fb Hz) as (l1 & e & l2 & f1 & f2 & _ & _ & He & _ & _). inversion He; subst. congruence.
      - apply (Hcn x). split; [rewrite <- (proj1 Ra); exact (amount_nodup _ _ _ Da (Iu _ _ H1))|rewrite <- (proj1 Rb); exact (amount_nodup _ _ _ Db H2)]. }
    pose (nl := map strip_exp (flat_map above vals')). pose (dl := map strip_exp (flat_map below vals')).
    assert (Bad : flat_map (div_place_bad la) vals' = []).
    { assert (A : Forall (fun v => div_place_bad la v = []) vals').
      { eapply Permutation_Forall; [apply Permutation_sym; exact R2|]. apply Forall_forall. intros v Hv. apply (no_bad_place la ta v Fa).
        rewrite !in_app_iff in Hv. destruct Hv as [Hv|[Hv|Hv]].
        - apply in_map_iff in Hv. destruct Hv as (c & <- & _). left. eauto.
        - right. left. clear - R3 Hv. induction R3 as [|e f l fs Hf H IH]; [destruct Hv|]. destruct Hv as [->|Hv]; eauto.
        - right. right. clear - R6 Hv. induction R6 as [|e f l fs Hf H IH]; [destruct Hv|]. destruct Hv as [->|Hv]; eauto. }
      clear - A. induction A as [|v l Hv A IH]; [reflexivity|]. cbn [flat_map]. now rewrite Hv, IH. }
    assert (Run : exists r, div_rest (simp (S (S (n + m))) prefer) a' b' = ([], Ok r) /\ fraction_of nl dl r).
    { unfold div_rest. rewrite (factors_flat a' ta Pa), (factors_flat b' tb Pb). fold la lb. rewrite (split_facs la ta Fa), app_nil_r, R1, bindok, Bad, place_flat.
      cbn [tell]. rewrite ?bindok. fold nl dl. pose proof (one_or_build_spec nl) as On. pose proof (one_or_build_spec dl) as Od.
      unfold fraction_of, product_or_one. destruct (one_or_build nl) as [p|], (one_or_build dl) as [q|].
      - destruct On as [On (d1 & T1)]. destruct Od as [Od (d2 & T2)]. exists (EDiv p q). split; [reflexivity|].
        destruct dl; [congruence|]. exists p, q. split; [reflexivity|]. split; [|eauto]. destruct nl; [congruence|eauto].
      - rewrite Od. destruct On as [On (d1 & T1)]. exists p. split; [reflexivity|]. destruct nl; [congruence|eauto].
      - rewrite On. destruct Od as [Od (d2 & T2)]. exists (EDiv (real 1) q). split; [reflexivity|]. destruct dl; [congruence|].
        exists (real 1), q. split; [reflexivity|]. split; [reflexivity|eauto].
      - rewrite On, Od. exists (real 1). split; reflexivity. }
    destruct Run as (r & Hr & Hf). exists nl, dl, r. split; [|split; [exact Hf|]].
    - exists (S (S (S (n + m)))).
      change (simp (S (S (S (n + m)))) prefer (EDiv a b)) with (visit_div (simp (S (S (n + m))) prefer) a b). unfold visit_div.
      rewrite (operands_run _ _ _ _ a' b'); [|eapply yields_ge; [exact Ya|lia]|eapply yields_ge; [exact Yb|lia]].
      unfold div_rules. cbn [first_rule].
      assert (Q1 : div_877 a' b' = ([], Ok None)).
      { unfold div_877. destruct (rcast (PBin ODiv PReal PReal) (EDiv a' b')) as [r'|] eqn:K; [|reflexivity]. exfalso.
        cbn [rcast binop_eqb commut] in K. assert (Ea : exists c, a' = EReal c) by (destruct a'; eauto; discriminate). destruct Ea as (c & Ea).
        assert (Eb : exists c, b' = EReal c) by (rewrite Ea in K; destruct b'; eauto; discriminate). destruct Eb as (d & Eb). subst la lb. rewrite Ea in Pa, Fa. rewrite Eb in Pb, Fb.
        inversion Pa as [? f Hf1|]; subst. inversion Pb as [? g Hg1|]; subst.
        assert (Nf : fst f = None) by (inversion Hf1; subst; [reflexivity|match goal with W : power _ _ _ _ |- _ => inversion W end]).
        assert (Ng : fst g = None) by (inversion Hg1; subst; [reflexivity|match goal with W : power _ _ _ _ |- _ => inversion W end]).
        rewrite names_app, in_app_iff in Hx0.
        assert (P1 : forall y0 us0 vs0, settles us0 vs0 -> Forall fine vs0 -> In (Some y0) (names vs0) -> In (Some y0) (names us0)).
        { intros y0 us0 vs0 Hs Hv Hi. destruct (in_dec name_dec (Some y0) (names us0)) as [|Hn]; [assumption|]. exfalso.
          pose proof (amount_notin _ _ Hn) as A. rewrite (proj1 Hs) in A. pose proof (amount_pos _ _ Hv Hi) as B. rewrite A in B. cbn in B. lia. }
        destruct Hx0 as [Hx0|Hx0].
        - apply (P1 x0 _ _ Ra) in Hx0; [|eapply product_fine, easy_product_product; eauto]. cbn in Hx0. destruct Hx0 as [Hx0|[]]. congruence.
        - apply (P1 x0 _ _ Rb) in Hx0; [|eapply product_fine, easy_product_product; eauto]. cbn in Hx0. destruct Hx0 as [Hx0|[]]. congruence. }
      assert (Q2 : div_884 a' b' = ([], Ok None)).
      { unfold div_884. assert (K : rcast pLog a' = None) by (inversion Pa as [? f Hf1|]; subst; [facs Hf1; reflexivity|reflexivity]).
        cbn [rcast binop_eqb commut]. unfold pLog in *. rewrite K. reflexivity. }
      rewrite Q1, bindok, Q2, bindok. exact Hr.
    - destruct (place_slots ps' tp' R6) as [U1 U2]. destruct (place_facs us' fu' R3 R5) as (V1 & V2 & V3).
      destruct (place_reals (repeat n1 j ++ base')) as [W1 W2]. rewrite flat_map_app, kept_ones in W1. cbn [app] in W1.
      assert (Pn : Permutation nl (map strip_exp (flat_map kept base') ++ us' ++ map strip_exp (flat_map above ps'))).
      { unfold nl. rewrite (Permutation_flat_map above R2), !flat_map_app, W1, V1, !map_app, V3. reflexivity. }
      assert (Pd : Permutation dl (map strip_exp (flat_map below ps'))).
      { unfold dl. rewrite (Permutation_flat_map below R2), !flat_map_app, W2, V2. reflexivity. }
      destruct (ups_spec tp' R7) as [N1 A1]. destruct (downs_spec tp' R7) as [N2 A2].
      destruct (Permutation_Forall2 (Permutation_sym Pd) U2) as (td & Ptd & Ftd).
      assert (Dj : forall x, ~ (In (Some x) (names fu') /\ In (Some x) (names (ups tp')))).
      { intros x [H1 H2]. apply ups_names in H2. destruct H2 as (y & Hy & H2). injection Hy as <-. now apply (R8 x H2). }
      assert (Cb : exists cb, lit cb (amount None gs) /\ map strip_exp (flat_map kept base') = coefficient (amount None gs) (hd n1 base) cb).
      { destruct (in_dec name_dec None (names tb)) as [Hi|Hi].
        - apply names_in in Hi. destruct Hi as (z & Hz). pose proof (amount_nodup _ _ _ Db Hz) as A. rewrite (proj1 Rb) in A.
          destruct (forall2_split _ _ _ _ Fb Hz) as (l1 & e & l2 & f1 & f2 & El & _ & He & _ & _).
          assert (Ec : exists c, e = EReal c /\ lit c z /\ z <> 1) by (inversion He; subst; eauto). destruct Ec as (c & -> & Hcz & Hz1).
          exists c. rewrite A. split; [exact Hcz|]. rewrite (R11 c); [|rewrite El; apply in_or_app; right; now left].
          unfold coefficient. apply Z.eqb_neq in Hz1. rewrite Hz1. cbn [flat_map]. unfold kept. destruct (n_eqb _ n1); reflexivity.
        - exists n1. pose proof (amount_notin _ _ Hi) as A. rewrite (proj1 Rb) in A. cbn [unit] in A. rewrite A. split; [exact lit1|].
          rewrite (R10 Hi). unfold coefficient. change (1 =? 1) with true. cbv iota. destruct Hbase as [->|(c & -> & _)]; cbn [hd flat_map map].
          + now rewrite (eqb_lit _ _ _ _ lit1 lit1).
          + unfold kept. destruct (n_eqb c n1); reflexivity. }
      destruct Cb as (cb & Lcb & Ecb). rewrite Ecb in Pn.
      exists (hd n1 base), cb, (us' ++ map strip_exp (flat_map above ps')), (fu' ++ ups tp'), td.
      split; [now rewrite <- (proj1 Ra)|]. split; [exact Lcb|]. split; [exact Pn|]. split; [now apply Forall2_app|].
      split; [|split; [|split; [exact Ftd|split; [|split]]]].
      + rewrite names_app. clear - R4 N1 Dj R5. revert R4 R5 Dj. generalize (names fu'). intros l. induction l as [|q l IH]; intros R4 R5 Dj; [exact N1|]. cbn [app]. apply NoDup_cons_iff in R4. destruct R4 as [R4 R4'].
        constructor; [|apply IH; [exact R4'|intros H; apply R5; now right|intros x [H1 H2]; apply (Dj x); split; [now right|exact H2]]].
        rewrite in_app_iff. intros [H|H]; [contradiction|]. destruct q as [x|]; [apply (Dj x); split; [now left|exact H]|apply R5; now left].
      + rewrite names_app, in_app_iff. intros [H|H]; [contradiction|]. apply ups_names in H. destruct H as (y & H & _). discriminate.
      + eapply Permutation_NoDup; [apply names_perm; exact Ptd|exact N2].
      + intros H. apply (Permutation_in _ (Permutation_sym (names_perm _ _ Ptd))) in H. apply downs_names in H. destruct H as (y & H & _). discriminate.
      + intros x. rewrite amount_app, A1, <- (amount_perm _ _ _ Ptd), A2. specialize (R9 x). rewrite Au, (proj1 Ra), (proj1 Rb) in R9.
        replace (net x []) with 0 in R9 by reflexivity.
        pose proof (amount_fine (Some x) fu' (facs_fine lit _ _ R3)) as Nn. cbn -[amount] in Nn. cbn [join].
        destruct (in_dec string_dec x (map fst tp')) as [Hx|Hx].
        * rewrite (amount_notin _ _ (R8 x Hx)) in *. cbn [unit] in *. lia.
        * rewrite (net_absent x tp' Hx) in *. lia.
  Qed.
End Quot.
