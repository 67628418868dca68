(** Flexible views: labels, rows and their meaning. *)
From Verif Require Import RBase QpBase OptModel MomSpec BlModel EpModel EpSpec EpProofs EpProofs2 EpProofs3 EpProofs4 FvSpec.
Open Scope R_scope.
Open Scope list_scope.

(** ** Labels *)
Lemma index_first assets l i : index_of l assets = Some i <-> first_at assets l i.
Proof.
  revert i. induction assets as [|a t IH]; intros i.
  - split; [discriminate|]. intros [H _]. destruct i; discriminate.
  - cbn [index_of]. unfold label_eqb. destruct (label_dec l a) as [<- |N].
    + split.
      * intros H. injection H as <-. split; [reflexivity|intros; lia].
      * intros [H F]. destruct i; [reflexivity|]. exfalso. apply (F 0%nat); [lia|reflexivity].
    + split.
      * destruct (index_of l t) as [k|] eqn:E; [|discriminate]. cbn. intros H. injection H as <-. destruct (proj1 (IH k) eq_refl) as [H1 H2].
        split; [exact H1|]. intros [|j] Hj; cbn; [congruence|apply H2; lia].
      * intros [H F]. destruct i as [|i]; [cbn in H; congruence|]. rewrite (proj2 (IH i)); [reflexivity|].
        split; [exact H|]. intros j Hj. apply (F (S j)). lia.
Qed.
Lemma index_none assets l : index_of l assets = None <-> ~ In l assets.
Proof.
  induction assets as [|a t IH]; cbn [index_of]; [split; auto|]. unfold label_eqb. destruct (label_dec l a) as [<- |N].
  - split; [discriminate|]. intros H. exfalso. apply H. left. reflexivity.
  - destruct (index_of l t); cbn.
    + split; [discriminate|]. intros H. exfalso. apply H. right. destruct (in_dec label_dec l t); auto. exfalso. apply IH in n0. discriminate.
    + split; auto. intros _ [H|H]; [congruence|]. apply IH; auto.
Qed.
Lemma first_at_in assets l i : first_at assets l i -> In l assets.
Proof. intros [H _]. eapply nth_error_In; eauto. Qed.
Lemma asset_idx_column assets l i : asset_idx assets l = Ok i <-> column assets l i.
Proof.
  unfold asset_idx, column. destruct (index_of l assets) as [k|] eqn:E.
  - apply index_first in E. split.
    + intros H. injection H as <-. left; auto.
    + intros [H|[N _]]; [|exfalso; apply N; eapply first_at_in; eauto]. apply index_first in E, H. congruence.
  - apply index_none in E. destruct l as [s|z].
    + destruct (digits s) as [k|] eqn:D.
      * destruct (index_of (LInt (Z.of_nat k)) assets) as [j|] eqn:J.
        -- apply index_first in J. split.
           ++ intros H. injection H as <-. right. split; auto. exists s, k. auto.
           ++ intros [H|[_ [s' [k' [H1 [H2 H3]]]]]]; [exfalso; apply E; eapply first_at_in; eauto|].
              injection H1 as <-. assert (k' = k) by congruence. subst. apply index_first in J, H3. congruence.
        -- split; [discriminate|]. intros [H|[_ [s' [k' [H1 [H2 H3]]]]]]; [exfalso; apply E; eapply first_at_in; eauto|].
           injection H1 as <-. assert (k' = k) by congruence. subst. apply index_first in H3. congruence.
      * split; [discriminate|]. intros [H|[_ [s' [k' [H1 [H2 H3]]]]]]; [exfalso; apply E; eapply first_at_in; eauto|]. injection H1 as <-. congruence.
    + split; [discriminate|]. intros [H|[_ [s' [k' [H1 _]]]]]; [exfalso; apply E; eapply first_at_in; eauto|discriminate].
Qed.
Lemma column_fun assets l i j : column assets l i -> column assets l j -> i = j.
Proof. intros A B. apply asset_idx_column in A, B. congruence. Qed.

(** ** Rows *)
Definition sat (T : nat) (c : rows * rows) (q : vec) : Prop := holds_eq T (fst c) q /\ holds_le T (snd c) q.
Definition cmp_ok (e : R) (o : cmp) (t : R) : Prop := match o with Eq => e = t | Ge | Gt => t <= e | Le | Lt => e <= t end.
Lemma holds_eq_app T A B q : holds_eq T (A ++ B) q <-> holds_eq T A q /\ holds_eq T B q.
Proof.
  split; [intros H; split; intros r b I; apply H, in_or_app; auto|]. intros [H1 H2] r b I. apply in_app_or in I. destruct I; auto.
Qed.
Lemma holds_le_app T A B q : holds_le T (A ++ B) q <-> holds_le T A q /\ holds_le T B q.
Proof.
  split; [intros H; split; intros r b I; apply H, in_or_app; auto|]. intros [H1 H2] r b I. apply in_app_or in I. destruct I; auto.
Qed.
Lemma holds_eq_one T r b q : holds_eq T [(r, b)] q <-> expectation T q r = b.
Proof. split; [intros H; apply H; left; auto|]. intros H r' b' [E|[]]. injection E as <- <-. auto. Qed.
Lemma holds_le_one T r b q : holds_le T [(r, b)] q <-> expectation T q r <= b.
Proof. split; [intros H; apply H; left; auto|]. intros H r' b' [E|[]]. injection E as <- <-. auto. Qed.
Lemma expectation_opp T q f : expectation T q (fun s => - f s) = - expectation T q f.
Proof. unfold expectation. rewrite <- sumn_opp. apply sumn_ext. intros; ring. Qed.
Lemma add_row_sat T acc o row raw q : sat T (add_row acc o row raw) q <-> sat T acc q /\ cmp_ok (expectation T q row) o raw.
Proof.
  unfold sat, cmp_ok. destruct o; cbn [add_row fst snd]; rewrite ?holds_eq_app, ?holds_le_app, ?holds_eq_one, ?holds_le_one, ?expectation_opp;
    intuition lra.
Qed.
Lemma add_specs_sat T row ok rhs l : forall acc acc', add_specs acc row ok rhs l = Ok acc' ->
  (forall o t, In (o, t) l -> ok t = true) /\
  forall q, sat T acc' q <-> sat T acc q /\ forall o t, In (o, t) l -> cmp_ok (expectation T q row) o (rhs t).
Proof.
  induction l as [|[o t] l IH]; intros acc acc' H; cbn [add_specs] in H.
  - injection H as <-. split; [intros ? ? []|]. intros q. split; [intros S; split; [auto|intros ? ? []]|tauto].
  - apply guard_ok in H. destruct H as [Hk H]. destruct (IH _ _ H) as [K1 K2]. split.
    + intros o' t' [E|I]; [injection E as <- <-; auto|eauto].
    + intros q. rewrite K2, add_row_sat. split.
      * intros [[S C] R]. split; auto. intros o' t' [E|I]; [injection E as <- <-; auto|auto].
      * intros [S R]. split; [split; auto; apply R; left; auto|]. intros; apply R; right; auto.
Qed.

(** ** One view *)
Lemma specs_meets v l (ok : R -> bool) (rhs : R -> R) e x : parse_specs v = Ok l -> (forall o t, In (o, t) l -> ok t = true) ->
  (forall t, ok t = true -> (e <= rhs t <-> x <= t) /\ (rhs t <= e <-> t <= x)) ->
  (forall o t, In (o, t) l -> cmp_ok e o (rhs t)) <-> meets x v.
Proof.
  intros P K M. destruct v as [t|o t|lo hi|]; cbn [parse_specs] in P.
  - injection P as <-. destruct (M t (K _ _ (or_introl eq_refl))) as [M1 M2]. cbn. split.
    + intros H. specialize (H Eq t (or_introl eq_refl)). cbn in H. apply Rle_antisym; [apply M1|apply M2]; lra.
    + intros -> o t' [E|[]]. injection E as <- <-. cbn. apply Rle_antisym; [apply M1|apply M2]; lra.
  - injection P as <-. destruct (M t (K _ _ (or_introl eq_refl))) as [M1 M2]. split.
    + intros H. specialize (H o t (or_introl eq_refl)). destruct o; cbn in *; try (apply M1; auto); try (apply M2; auto).
      apply Rle_antisym; [apply M1|apply M2]; lra.
    + intros H o' t' [E|[]]. injection E as <- <-. destruct o; cbn in *; try (apply M1; auto); try (apply M2; auto).
      apply Rle_antisym; [apply M1|apply M2]; lra.
  - apply guard_ok in P. destruct P as [_ P]. injection P as <-.
    destruct (M lo (K _ _ (or_introl eq_refl))) as [_ M2]. destruct (M hi (K _ _ (or_intror (or_introl eq_refl)))) as [M1 _]. cbn [meets]. split.
    + intros H. split; [apply M2, (H Ge lo); left; auto|apply M1, (H Le hi); right; left; auto].
    + intros [H1 H2] o t [E|[E|[]]]; injection E as <- <-; cbn; [apply M2|apply M1]; auto.
  - discriminate.
Qed.

(** Moments under a probability vector. *)
Lemma expectation_ext T q f g : (forall s, (s < T)%nat -> f s = g s) -> expectation T q f = expectation T q g.
Proof. intros H. apply sumn_ext. intros s Hs. rewrite H; auto. Qed.
Lemma expectation_lin T q f g c : expectation T q (fun s => f s + c * g s) = expectation T q f + c * expectation T q g.
Proof. unfold expectation. rewrite <- sumn_scale, <- sumn_plus. apply sumn_ext. intros; ring. Qed.
Lemma expectation_const T q c : sumn T q = 1 -> expectation T q (fun _ => c) = c.
Proof. intros H. unfold expectation. rewrite sumn_scale_r, H. ring. Qed.
Lemma expectation_nonneg T q f : (forall s, (s < T)%nat -> 0 <= q s) -> (forall s, (s < T)%nat -> 0 <= f s) -> 0 <= expectation T q f.
Proof. intros H G. apply sumn_nonneg. intros; apply Rmult_le_pos; auto. Qed.
Lemma second_moment T q X i : sumn T q = 1 -> expectation T q (fun s => X s i ^ 2) = var_of T q X i + mean_of T q X i ^ 2.
Proof.
  intros H. unfold var_of, variance. fold (mean_of T q X i). set (m := mean_of T q X i).
  rewrite (expectation_ext T q (fun s => (X s i - m) ^ 2) (fun s => (X s i ^ 2 + (- (2 * m)) * X s i) + 1 * m ^ 2)) by (intros; ring).
  rewrite (expectation_lin T q (fun s => X s i ^ 2 + (- (2 * m)) * X s i) (fun _ => m ^ 2)), (expectation_lin T q (fun s => X s i ^ 2)), expectation_const by auto.
  fold (mean_of T q X i). fold m. ring.
Qed.
Lemma third_moment T q X i : sumn T q = 1 ->
  expectation T q (fun s => X s i ^ 3) = expectation T q (fun s => (X s i - mean_of T q X i) ^ 3) + 3 * mean_of T q X i * var_of T q X i + mean_of T q X i ^ 3.
Proof.
  intros H. pose proof (second_moment T q X i H) as S2. set (m := mean_of T q X i) in *.
  rewrite (expectation_ext T q (fun s => (X s i - m) ^ 3) (fun s => ((X s i ^ 3 + (- (3 * m)) * X s i ^ 2) + 3 * m ^ 2 * X s i) + 1 * - m ^ 3)) by (intros; ring).
  rewrite (expectation_lin T q (fun s => (X s i ^ 3 + (- (3 * m)) * X s i ^ 2) + 3 * m ^ 2 * X s i) (fun _ => - m ^ 3)).
  rewrite (expectation_lin T q (fun s => X s i ^ 3 + (- (3 * m)) * X s i ^ 2) (fun s => X s i) (3 * m ^ 2)), (expectation_lin T q (fun s => X s i ^ 3)), expectation_const by auto.
  fold (mean_of T q X i). fold m. rewrite S2. ring.
Qed.
Lemma cross_moment T q X i j : sumn T q = 1 -> expectation T q (fun s => X s i * X s j) = cov_of T q X i j + mean_of T q X i * mean_of T q X j.
Proof.
  intros H. unfold cov_of. set (mi := mean_of T q X i). set (mj := mean_of T q X j).
  rewrite (expectation_ext T q (fun s => (X s i - mi) * (X s j - mj)) (fun s => ((X s i * X s j + - mj * X s i) + - mi * X s j) + 1 * (mi * mj))) by (intros; ring).
  rewrite (expectation_lin T q (fun s => (X s i * X s j + - mj * X s i) + - mi * X s j) (fun _ => mi * mj)).
  rewrite (expectation_lin T q (fun s => X s i * X s j + - mj * X s i) (fun s => X s j)), (expectation_lin T q (fun s => X s i * X s j)), expectation_const by auto.
  fold (mean_of T q X i). fold (mean_of T q X j). fold mi mj. ring.
Qed.
Lemma var_nonneg T q X i : (forall s, (s < T)%nat -> 0 <= q s) -> 0 <= var_of T q X i.
Proof. intros H. apply expectation_nonneg; auto. intros. apply pow2_ge_0. Qed.
Lemma vol_sq T q X i : (forall s, (s < T)%nat -> 0 <= q s) -> vol_of T q X i ^ 2 = var_of T q X i.
Proof. intros H. unfold vol_of. simpl. rewrite Rmult_1_r. apply sqrt_sqrt, var_nonneg; auto. Qed.

Lemma ok3 {A B C} (a a' : A) (b b' : B) (c c' : C) : Ok (a, b, c) = Ok (a', b', c') -> a = a' /\ b = b' /\ c = c'.
Proof. intros H. injection H as H1 H2 H3. auto. Qed.
(** ** A list of views of one type *)
Section Block.
  Variables (assets : list label) (T : nat) (X : mat) (mu var : vec).
  Lemma view_row_meaning mt key row ok rhs q : view_row assets X mu var mt key = Ok (row, ok, rhs) -> is_prob T q ->
    (mt = MCorr -> exists l, key = KTup l) ->
    (forall a i, In a (key_labels key) -> column assets a i -> exact_at T X q mu var mt i) ->
    exists x, stat_of assets T X q mt key x /\
      forall t, ok t = true -> (expectation T q row <= rhs t <-> x <= t) /\ (rhs t <= expectation T q row <-> t <= x).
  Proof.
    intros H [Q0 Q1] PK EX. destruct mt; cbn [view_row] in H.
    - (* mean *)
      assert (ONE : forall a, key = KOne a -> exists x, stat_of assets T X q MMean key x /\ forall t, ok t = true -> (expectation T q row <= rhs t <-> x <= t) /\ (rhs t <= expectation T q row <-> t <= x)).
      { intros a ->. cbn [key_idx] in H. apply bind_ok in H. destruct H as [i [I H]]. apply ok3 in H. destruct H as [<- [<- <-]]. apply asset_idx_column in I.
        exists (mean_of T q X i). split; [apply (stat_mean _ _ _ _ a); auto|]. intros t _. unfold mean_of. tauto. }
      destruct key as [a|[|a [|b [|c l]]]]; try (cbn [key_idx bind] in H; discriminate); [apply (ONE a eq_refl)|].
      apply bind_ok in H. destruct H as [i [I H]]. apply bind_ok in H. destruct H as [j [J H]]. apply ok3 in H. destruct H as [<- [<- <-]]. apply asset_idx_column in I, J.
      exists (mean_of T q X i - mean_of T q X j). split; [apply (stat_diff _ _ _ _ a b); auto|]. intros t _.
      assert (E : expectation T q (fun s => X s i - X s j) = mean_of T q X i - mean_of T q X j).
      { unfold mean_of, expectation. rewrite <- sumn_minus. apply sumn_ext; intros; ring. }
      rewrite E. tauto.
    - (* vol *)
      destruct key as [a|l]; [|discriminate]. cbn [key_idx] in H. apply bind_ok in H. destruct H as [i [I H]]. apply ok3 in H. destruct H as [<- [<- <-]]. apply asset_idx_column in I.
      exists (vol_of T q X i). split; [apply (stat_vol _ _ _ _ a); auto|]. intros t Ht. apply negb_true_iff, Rleb_false in Ht.
      assert (M : mu i = mean_of T q X i) by (apply (EX a i); [left; auto|auto]).
      rewrite (second_moment T q X i Q1), M. rewrite <- (vol_sq T q X i Q0). assert (V : 0 <= vol_of T q X i) by apply sqrt_pos.
      set (v := vol_of T q X i) in *. clearbody v. split; split; intros; nra.
    - (* var *)
      destruct key as [a|l]; [|discriminate]. cbn [key_idx] in H. apply bind_ok in H. destruct H as [i [I H]]. apply ok3 in H. destruct H as [<- [<- <-]]. apply asset_idx_column in I.
      exists (var_of T q X i). split; [apply (stat_var _ _ _ _ a); auto|]. intros t Ht.
      assert (M : mu i = mean_of T q X i) by (apply (EX a i); [left; auto|auto]).
      rewrite (second_moment T q X i Q1), M. split; split; intros; lra.
    - (* skew *)
      destruct key as [a|l]; [|discriminate]. cbn [key_idx] in H. apply bind_ok in H. destruct H as [i [I H]]. apply guard_ok in H. destruct H as [_ H]. apply ok3 in H. destruct H as [<- [<- <-]]. apply asset_idx_column in I.
      exists (skew_of T q X i). split; [apply (stat_skew _ _ _ _ a); auto|]. intros t Ht.
      destruct (EX a i) as [M [V P]]; [left; auto|auto|]. rewrite (third_moment T q X i Q1), M, V. rewrite V in P.
      unfold skew_of. fold (vol_of T q X i). assert (S0 : 0 < vol_of T q X i) by (apply sqrt_lt_R0; auto).
      assert (S3 : 0 < vol_of T q X i ^ 3) by (apply pow_lt; auto).
      set (c := expectation T q (fun s => (X s i - mean_of T q X i) ^ 3)). set (k := vol_of T q X i ^ 3) in *. clearbody c k.
      assert (E : c = c / k * k) by (field; lra). set (z := c / k) in *. clearbody z. rewrite E.
      split; split; intros; nra.
    - (* corr *)
      destruct (PK eq_refl) as [l ->]. destruct l as [|a [|b [|c l]]]; try discriminate. cbn [unpack2 bind] in H.
      apply bind_ok in H. destruct H as [i [I H]]. apply bind_ok in H. destruct H as [j [J H]]. apply ok3 in H. destruct H as [<- [<- <-]]. apply asset_idx_column in I, J.
      exists (corr_of T q X i j). split; [apply (stat_corr _ _ _ _ a b); auto|]. intros t Ht.
      destruct (EX a i) as [Mi [Vi Pi]]; [left; auto|auto|]. destruct (EX b j) as [Mj [Vj Pj]]; [right; left; auto|auto|].
      rewrite (cross_moment T q X i j Q1), Mi, Mj, Vi, Vj. rewrite Vi in Pi. rewrite Vj in Pj. unfold corr_of. fold (vol_of T q X i) (vol_of T q X j).
      assert (Si : 0 < vol_of T q X i) by (apply sqrt_lt_R0; auto). assert (Sj : 0 < vol_of T q X j) by (apply sqrt_lt_R0; auto).
      rewrite Rmult_assoc. assert (Sk : 0 < vol_of T q X i * vol_of T q X j) by (apply Rmult_lt_0_compat; auto).
      set (k := vol_of T q X i * vol_of T q X j) in *. set (c := cov_of T q X i j). clearbody c k.
      assert (E : c = c / k * k) by (field; lra). set (z := c / k) in *. clearbody z. rewrite E. split; split; intros; nra.
  Qed.
  Lemma build_sat mt q : is_prob T q -> forall vs acc acc', build_constraints assets X mu var mt vs acc = Ok acc' ->
    (mt = MCorr -> pair_keys vs) -> (forall i, viewed assets vs i -> exact_at T X q mu var mt i) ->
    sat T acc' q <-> sat T acc q /\ views_hold assets T X q mt vs.
  Proof.
    intros Q. induction vs as [|[key v] vs IH]; intros acc acc' H PK EX; cbn [build_constraints] in H.
    - injection H as <-. split; [intros S; split; [auto|intros ? ? []]|tauto].
    - apply bind_ok in H. destruct H as [[[row ok] rhs] [E H]]. apply bind_ok in H. destruct H as [l [P H]].
      apply bind_ok in H. destruct H as [acc1 [A H]].
      destruct (view_row_meaning mt key row ok rhs q E Q) as [x [St M]].
      { intros Hm. destruct (PK Hm key v) as [l' ->]; [left; auto|eauto]. }
      { intros a i I C. apply EX. exists key, v, a. split; [left; auto|auto]. }
      destruct (add_specs_sat T row ok rhs l _ _ A) as [K S].
      rewrite (IH acc1 acc' H); [|intros Hm key' v' I; apply (PK Hm key' v'); right; auto|intros i [key' [v' [a [I V]]]]; apply EX; exists key', v', a; split; [right; auto|auto]].
      rewrite S, (specs_meets v l ok rhs (expectation T q row) x P K M). split.
      + intros [[S0 Mx] VH]. split; auto. intros key' v' [Ek|I]; [injection Ek as <- <-; eauto|auto].
      + intros [S0 VH]. split; [split; auto|intros key' v' I; apply VH; right; auto].
        destruct (VH key v (or_introl eq_refl)) as [x' [St' Mx]].
        assert (x = x'); [|congruence].
        clear -St St'. inversion St; subst; inversion St'; subst;
          repeat match goal with A : column assets ?l ?i, B : column assets ?l ?j |- _ => assert (i = j) by (eapply column_fun; eauto); subst; clear A end; reflexivity.
  Qed.
End Block.
