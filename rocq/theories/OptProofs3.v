(** Proofs about max_sharpe, RobustOptimizer and RelaxedRiskParity. *)
From Verif Require Import RBase QpBase OptModel OptSpec OptProofs OptProofs2.
Open Scope R_scope.

(** * max_sharpe *)
Definition hom_feasible (n : nat) (G A : option rows) (w : vec) : Prop :=
  (forall g h, In (g, h) (opt_rows G) -> dot n g w <= 0) /\
  (forall a b, In (a, b) (opt_rows A) -> Rabs b <= 1 / 1000000000000 -> dot n a w = 0).

Lemma dot_excess n mean rf y : dot n (fun i => mean i - rf) y = excess n mean rf y.
Proof.
  unfold excess, dot. rewrite <- sumn_scale, <- sumn_minus. apply sumn_ext. intros; ring.
Qed.

Lemma sharpe_feasible n mean cov G A rf y :
  qp_feasible (sharpe_qp n mean cov G A rf) y <-> hom_feasible n G A y /\ excess n mean rf y = 1.
Proof.
  unfold qp_feasible, hom_feasible, sharpe_qp; simpl. rewrite <- dot_excess. split.
  - intros [H1 H2]. repeat split.
    + intros g h Hi. apply H1. apply in_map_iff. exists (g, h). auto.
    + intros a b Hi Hb. apply H2. right. apply in_map_iff. exists (a, b). split; auto.
      apply filter_In. split; auto. apply Rleb_true. exact Hb.
    + apply H2. auto.
  - intros [[H1 H2] H3]. split.
    + intros g h Hi. apply in_map_iff in Hi as ([g' h'] & E & Hi). injection E as <- <-. simpl. eapply H1; eauto.
    + intros a b [Hi|Hi].
      * injection Hi as <- <-. exact H3.
      * apply in_map_iff in Hi as ([a' b'] & E & Hi). injection E as <- <-. simpl.
        apply filter_In in Hi as [Hi Hb]. apply Rleb_true in Hb. eapply H2; eauto.
Qed.

Lemma excess_scale n mean rf k y : excess n mean rf (fun i => k * y i) = k * excess n mean rf y.
Proof. unfold excess. rewrite dot_scale_r, sumn_scale. ring. Qed.

Lemma hom_scale n G A k y : 0 <= k -> hom_feasible n G A y -> hom_feasible n G A (fun i => k * y i).
Proof.
  intros Hk [H1 H2]. split; intros; rewrite dot_scale_r.
  - specialize (H1 g h H). nra.
  - rewrite (H2 a b) by auto. ring.
Qed.

Lemma sharpe_inv solve n mean cov G A rf r : exact_qp solve -> max_sharpe solve n mean cov G A rf = Ok r ->
  exists y s, s <> 0 /\ (forall i, r_weights r i = / s * y i) /\ sumn n y = s /\
    hom_feasible n G A y /\ excess n mean rf y = 1 /\
    (forall z, hom_feasible n G A z -> excess n mean rf z = 1 -> quad n cov y <= quad n cov z) /\
    r_return r = dot n mean (r_weights r) /\ r_risk r = sqrt (quad n cov (r_weights r)).
Proof.
  intros Hs H. unfold max_sharpe in H. destruct (solve (sharpe_qp n mean cov G A rf)) as [y|] eqn:E; [|discriminate].
  destruct (Rltb_spec (Rabs (sumn n y)) (1 / 1000000000000)) as [Hc|Hc]; [discriminate|].
  injection H as <-. apply Hs in E as [Hf Ho]. apply sharpe_feasible in Hf as [Hf He].
  exists y, (sumn n y). repeat split; auto; simpl.
  - intros E. rewrite E, Rabs_R0 in Hc. lra.
  - intros i. unfold Rdiv. ring.
  - apply Hf.
  - apply Hf.
  - intros z Hz Hze. assert (Hzf : qp_feasible (sharpe_qp n mean cov G A rf) z) by (apply sharpe_feasible; auto).
    specialize (Ho z Hzf). unfold qp_obj in Ho; simpl in Ho. rewrite !quad_scale, !dot_zrow in Ho. lra.
Qed.

Lemma sumn_w n (w y : vec) s : s <> 0 -> (forall i, w i = / s * y i) -> sumn n y = s -> sumn n w = 1.
Proof.
  intros Hs Hw Hy. rewrite (sumn_ext n w (fun i => / s * y i)) by auto. rewrite sumn_scale, Hy. field. auto.
Qed.

Lemma quad_ext_r n P x y : (forall i, x i = y i) -> quad n P x = quad n P y.
Proof. intros. apply quad_ext; auto. Qed.
Lemma excess_ext n mean rf x y : (forall i, x i = y i) -> excess n mean rf x = excess n mean rf y.
Proof. intros. unfold excess. rewrite (dot_ext_r n mean x y), (sumn_ext n x y); auto. Qed.

Lemma inv_pos_sign s : s <> 0 -> 0 < / s -> 0 < s.
Proof.
  intros H1 H2. destruct (Rlt_or_le 0 s); auto. assert (s < 0) by lra. apply Rinv_lt_0_compat in H0. lra.
Qed.

Lemma sharpe_le e1 q1 e2 q2 : 0 < q1 -> 0 < q2 -> 0 < e1 -> e2 * e2 * q1 <= e1 * e1 * q2 -> e2 / sqrt q2 <= e1 / sqrt q1.
Proof.
  intros H1 H2 H3 H. assert (S1 : 0 < sqrt q1) by (apply sqrt_lt_R0; auto). assert (S2 : 0 < sqrt q2) by (apply sqrt_lt_R0; auto).
  assert (E1 : sqrt q1 * sqrt q1 = q1) by (apply sqrt_sqrt; lra). assert (E2 : sqrt q2 * sqrt q2 = q2) by (apply sqrt_sqrt; lra).
  apply Rmult_le_reg_r with (sqrt q1 * sqrt q2); [nra|].
  replace (e2 / sqrt q2 * (sqrt q1 * sqrt q2)) with (e2 * sqrt q1) by (field; lra).
  replace (e1 / sqrt q1 * (sqrt q1 * sqrt q2)) with (e1 * sqrt q2) by (field; lra).
  destruct (Rle_or_lt e2 0) as [Hn|Hp].
  - assert (0 <= e1 * sqrt q2) by nra. nra.
  - apply Rsqr_incr_0; try nra. unfold Rsqr. nra.
Qed.

Lemma max_sharpe_l solve n mean cov G A rf r : exact_qp solve -> max_sharpe solve n mean cov G A rf = Ok r ->
  0 < excess n mean rf (r_weights r) ->
  sumn n (r_weights r) = 1 /\ hom_feasible n G A (r_weights r) /\
  forall w', hom_feasible n G A w' -> 0 < excess n mean rf w' ->
    excess n mean rf w' * excess n mean rf w' * quad n cov (r_weights r) <=
    excess n mean rf (r_weights r) * excess n mean rf (r_weights r) * quad n cov w'.
Proof.
  intros Hs H He. destruct (sharpe_inv _ _ _ _ _ _ _ _ Hs H) as (y & s & Hs0 & Hw & Hy & Hhom & He1 & Ho & _).
  rewrite (excess_ext _ _ _ _ _ Hw) in He. rewrite excess_scale, He1 in He. rewrite Rmult_1_r in He.
  assert (Hspos : 0 < s) by (apply inv_pos_sign; auto).
  split; [apply (sumn_w n _ y s); auto|]. split.
  - destruct (hom_scale n G A (/ s) y (Rlt_le _ _ He) Hhom) as [A1 A2]. split; intros.
    + rewrite (dot_ext_r n g _ (fun i => / s * y i)) by auto. eauto.
    + rewrite (dot_ext_r n a _ (fun i => / s * y i)) by auto. eauto.
  - intros w' Hw' He'. set (e' := excess n mean rf w') in *.
    specialize (Ho (fun i => / e' * w' i)).
    assert (L : quad n cov y <= / e' * / e' * quad n cov w').
    { rewrite <- quad_vec_scale. apply Ho.
      - apply hom_scale; auto. apply Rlt_le, Rinv_0_lt_compat; auto.
      - rewrite excess_scale. fold e'. field. lra. }
    rewrite (excess_ext _ _ _ _ _ Hw), (quad_ext_r _ _ _ _ Hw), excess_scale, quad_vec_scale, He1.
    apply Rmult_le_reg_r with (s * s); [nra|].
    replace (e' * e' * (/ s * / s * quad n cov y) * (s * s)) with (e' * e' * quad n cov y) by (field; lra).
    replace (/ s * 1 * (/ s * 1) * quad n cov w' * (s * s)) with (quad n cov w') by (field; lra).
    apply Rle_trans with (e' * e' * (/ e' * / e' * quad n cov w')).
    + apply Rmult_le_compat_l; [nra|auto].
    + right. field. lra.
Qed.

(** Constraint sets for which the reformulation is faithful: homogeneous inequalities;
    equalities that are homogeneous or the budget [sum w = 1]. *)
Lemma dot_ones n a w : (forall i, (i < n)%nat -> a i = 1) -> dot n a w = sumn n w.
Proof. intros H. apply sumn_ext. intros i Hi. rewrite H by auto. ring. Qed.

Lemma hom_constrained n G A w : homogeneous_set n G A -> sumn n w = 1 ->
  (hom_feasible n G A w <-> constrained n G A w).
Proof.
  intros [HG HA] Hsum. split; intros [H1 H2]; split; intros g h Hi.
  - rewrite (HG g h Hi). eauto.
  - destruct (HA g h Hi) as [->|[-> Ho]]; [|rewrite dot_ones; auto].
    apply (H2 g 0 Hi). rewrite Rabs_R0. lra.
  - specialize (H1 g h Hi). rewrite (HG g h Hi) in H1. exact H1.
  - intros Hb. specialize (H2 g h Hi). destruct (HA g h Hi) as [->|[-> Ho]]; auto.
    rewrite Rabs_R1 in Hb. lra.
Qed.

Lemma max_sharpe_opt solve n mean cov G A rf r : exact_qp solve -> homogeneous_set n G A ->
  max_sharpe solve n mean cov G A rf = Ok r ->
  0 < excess n mean rf (r_weights r) -> 0 < quad n cov (r_weights r) ->
  constrained n G A (r_weights r) /\ sumn n (r_weights r) = 1 /\
  forall w', constrained n G A w' -> sumn n w' = 1 -> 0 < quad n cov w' ->
    sharpe n mean cov rf w' <= sharpe n mean cov rf (r_weights r).
Proof.
  intros Hs Hh H He Hq. destruct (max_sharpe_l _ _ _ _ _ _ _ _ Hs H He) as (H1 & H2 & H3).
  split; [apply hom_constrained; auto|]. split; auto.
  intros w' Hw' Hsum Hq'. unfold sharpe. apply hom_constrained in Hw'; auto.
  assert (S1 : 0 < sqrt (quad n cov (r_weights r))) by (apply sqrt_lt_R0; auto).
  assert (S2 : 0 < sqrt (quad n cov w')) by (apply sqrt_lt_R0; auto).
  destruct (Rle_or_lt (excess n mean rf w') 0) as [Hn|Hp].
  - apply Rle_trans with 0.
    + unfold Rdiv. assert (0 < / sqrt (quad n cov w')) by (apply Rinv_0_lt_compat; auto). nra.
    + apply Rlt_le, Rdiv_lt_0_compat; auto.
  - apply sharpe_le; auto.
Qed.

(** Long-only rows force a positive weight sum. *)
Lemma max_sharpe_long_only solve n mean cov G A rf r : exact_qp solve ->
  (forall i, (i < n)%nat -> exists h, In (ropp (eye_row i), h) (opt_rows G)) ->
  max_sharpe solve n mean cov G A rf = Ok r ->
  0 < excess n mean rf (r_weights r) /\ forall i, (i < n)%nat -> 0 <= r_weights r i.
Proof.
  intros Hs Hlo H. destruct (sharpe_inv _ _ _ _ _ _ _ _ Hs H) as (y & s & Hs0 & Hw & Hy & [Hh1 _] & He1 & _).
  assert (Hy0 : forall i, (i < n)%nat -> 0 <= y i).
  { intros i Hi. destruct (Hlo i Hi) as [h Hin]. specialize (Hh1 _ _ Hin). rewrite dot_ropp, dot_eye in Hh1 by auto. lra. }
  assert (0 <= s) by (rewrite <- Hy; apply sumn_nonneg; auto).
  assert (Hsp : 0 < / s) by (apply Rinv_0_lt_compat; lra).
  split.
  - rewrite (excess_ext _ _ _ _ _ Hw), excess_scale, He1. lra.
  - intros i Hi. rewrite Hw. apply Rmult_le_pos; [lra|auto].
Qed.

(** Long-only plus per-asset caps: the homogenised problem is empty. *)
Lemma max_sharpe_box solve n mean cov G A rf : exact_qp solve ->
  (forall i, (i < n)%nat -> (exists h, In (ropp (eye_row i), h) (opt_rows G)) /\ exists u, In (eye_row i, u) (opt_rows G)) ->
  max_sharpe solve n mean cov G A rf = Err InfeasibleError.
Proof.
  intros Hs Hbox. unfold max_sharpe. destruct (solve (sharpe_qp n mean cov G A rf)) as [y|] eqn:E; [|reflexivity].
  exfalso. apply Hs in E as [Hf _]. apply sharpe_feasible in Hf as [[Hh _] He].
  assert (Hy0 : forall i, (i < n)%nat -> y i = 0).
  { intros i Hi. destruct (Hbox i Hi) as [[h Hin] [u Hin2]]. pose proof (Hh _ _ Hin) as L1. pose proof (Hh _ _ Hin2) as L2.
    rewrite dot_ropp, dot_eye in L1 by auto. rewrite dot_eye in L2 by auto. lra. }
  rewrite <- dot_excess in He. unfold dot in He. rewrite sumn_0 in He; [lra|]. intros i Hi. rewrite Hy0 by auto. ring.
Qed.

(** Without inequalities a negative excess return means the worst Sharpe ratio. *)
Lemma max_sharpe_neg solve n mean cov A rf r : exact_qp solve -> homogeneous_set n None A ->
  max_sharpe solve n mean cov None A rf = Ok r ->
  excess n mean rf (r_weights r) < 0 -> 0 < quad n cov (r_weights r) ->
  forall w', constrained n None A w' -> sumn n w' = 1 -> 0 < quad n cov w' ->
    sharpe n mean cov rf (r_weights r) <= sharpe n mean cov rf w'.
Proof.
  intros Hs Hh H He Hq w' Hw' Hsum Hq'.
  destruct (sharpe_inv _ _ _ _ _ _ _ _ Hs H) as (y & s & Hs0 & Hw & Hy & Hhom & He1 & Ho & _).
  apply hom_constrained in Hw' as [_ Hw']; auto.
  set (e := excess n mean rf (r_weights r)) in *. set (e' := excess n mean rf w') in *.
  assert (Ee : e = / s) by (unfold e; rewrite (excess_ext _ _ _ _ _ Hw), excess_scale, He1; ring).
  assert (Eq : quad n cov (r_weights r) = / s * / s * quad n cov y) by (rewrite (quad_ext_r _ _ _ _ Hw), quad_vec_scale; reflexivity).
  unfold sharpe. fold e e'.
  enough (- e' / sqrt (quad n cov w') <= - e / sqrt (quad n cov (r_weights r))) by (unfold Rdiv in *; lra).
  destruct (Rle_or_lt 0 e') as [Hp|Hn].
  - assert (S1 : 0 < / sqrt (quad n cov (r_weights r))) by (apply Rinv_0_lt_compat, sqrt_lt_R0; auto).
    assert (S2 : 0 < / sqrt (quad n cov w')) by (apply Rinv_0_lt_compat, sqrt_lt_R0; auto).
    unfold Rdiv. nra.
  - apply sharpe_le; auto; [lra|].
    assert (L : quad n cov y <= / e' * / e' * quad n cov w').
    { rewrite <- quad_vec_scale. apply Ho.
      - split; simpl; [tauto|]. intros a b Hi Hb. rewrite dot_scale_r, (Hw' a b) by auto. ring.
      - rewrite excess_scale. fold e'. field. lra. }
    rewrite Eq, Ee.
    replace (- e' * - e' * (/ s * / s * quad n cov y)) with (/ s * / s * (e' * e' * quad n cov y)) by ring.
    replace (- / s * - / s * quad n cov w') with (/ s * / s * quad n cov w') by ring.
    apply Rmult_le_compat_l; [assert (0 <= / s * / s) by (apply Rle_0_sqr); lra|].
    apply Rle_trans with (e' * e' * (/ e' * / e' * quad n cov w')).
    + apply Rmult_le_compat_l; [nra|auto].
    + right. field. lra.
Qed.

(** * Cones *)
Lemma soc_map n (head : vec) (f : nat -> vec) m x :
  soc_ok n (head :: map f (seq 0 m)) x <-> sqrt (sumn m (fun i => dot n (f i) x * dot n (f i) x)) <= - dot n head x.
Proof.
  unfold soc_ok; simpl. rewrite !map_map, rsum_seq.
  rewrite (sumn_ext m (fun t => - dot n (f (0 + t)%nat) x * - dot n (f (0 + t)%nat) x)
             (fun i => dot n (f i) x * dot n (f i) x)) by (intros; simpl; ring).
  reflexivity.
Qed.

Lemma soc3 n a b c x : soc_ok n [a; b; c] x <->
  sqrt (dot n b x * dot n b x + dot n c x * dot n c x) <= - dot n a x.
Proof.
  unfold soc_ok; simpl.
  replace (- dot n b x * - dot n b x + (- dot n c x * - dot n c x + 0)) with
    (dot n b x * dot n b x + dot n c x * dot n c x) by ring. reflexivity.
Qed.

Lemma sqrt_le_iff a b : 0 <= a -> (sqrt a <= b <-> 0 <= b /\ a <= b * b).
Proof.
  intros Ha. split.
  - intros H. pose proof (sqrt_pos a). split; [lra|]. rewrite <- (sqrt_sqrt a Ha). apply Rmult_le_compat; lra.
  - intros [H1 H2]. rewrite <- (sqrt_square b H1). apply sqrt_le_1; auto. nra.
Qed.

(** * Cholesky *)
Lemma is_cholesky_ext n M M' L : (forall i j, (i < n)%nat -> (j < n)%nat -> M i j = M' i j) ->
  is_cholesky n M L -> is_cholesky n M' L.
Proof. intros H (H1 & H2 & H3). repeat split; auto. intros. rewrite H3, H; auto. Qed.

Lemma cholesky_loop_l chol n M left : exact_chol chol -> forall cur L, 0 <= cur -> cholesky_loop chol n M cur left = Ok L ->
  exists j, 0 <= j /\ (cur <= j) /\ (cur = 0 -> j = 0 \/ j <= 1 / 1000000000000 * 10 ^ (left - 1)) /\
            (0 < cur -> j <= cur * 10 ^ left) /\ (j <> cur -> chol n (if Reqb cur 0 then M else jittered M cur) = None) /\
            is_cholesky n (plus_jitter M j) L.
Proof.
  intros Hc. induction left as [|left IH]; intros cur L Hcur H; simpl in H.
  - destruct (chol n (if Reqb cur 0 then M else jittered M cur)) as [L'|] eqn:E; [|discriminate].
    injection H as <-. exists cur. repeat split; try lra; auto; try (intros; lra); try congruence.
    all: apply Hc in E; destruct (Reqb_spec cur 0) as [->|Hn]; try (destruct E as (E1 & E2 & E3)); auto.
    + intros. rewrite E3 by auto. unfold plus_jitter. ring.
  - destruct (chol n (if Reqb cur 0 then M else jittered M cur)) as [L'|] eqn:E.
    + injection H as <-. exists cur. repeat split; try lra; auto; try congruence.
      { intros Hp. assert (1 <= 10 ^ (S left)) by (apply pow_R1_Rle; lra). nra. }
      all: apply Hc in E; destruct (Reqb_spec cur 0) as [->|Hn]; try (destruct E as (E1 & E2 & E3)); auto.
      intros. rewrite E3 by auto. unfold plus_jitter. ring.
    + destruct (Reqb_spec cur 0) as [->|Hn].
      * apply IH in H as (j & A1 & A2 & A3 & A4 & A5 & A6); [|lra].
        exists j. repeat split; auto; try lra; try apply A6.
        intros _. right. rewrite Nat.sub_succ, Nat.sub_0_r. apply A4. lra.
      * apply IH in H as (j & A1 & A2 & A3 & A4 & A5 & A6); [|lra].
        exists j. repeat split; auto; try lra; try apply A6.
        intros Hp. simpl. specialize (A4 ltac:(lra)). lra.
Qed.

(** The factor belongs to the symmetrised matrix plus at most 1e-7 on the diagonal; no jitter
    when the plain factorisation succeeds. *)
Lemma cholesky_pd_l chol n M L : exact_chol chol -> cholesky_pd chol n M = Ok L ->
  exists j, 0 <= j <= 1 / 10000000 /\ (chol n (symmetrise M) <> None -> j = 0) /\
            is_cholesky n (plus_jitter (symmetrise M) j) L.
Proof.
  intros Hc H. unfold cholesky_pd in H. apply cholesky_loop_l in H as (j & A1 & _ & A3 & _ & A5 & A6); auto; [|lra].
  exists j. split; [split; auto|split; auto].
  - destruct (A3 eq_refl) as [->|Hj]; [lra|]. simpl in Hj. lra.
  - intros Hs. destruct (Req_dec j 0) as [|Hj]; auto. specialize (A5 Hj).
    destruct (Reqb_spec 0 0) as [_|]; [congruence|lra].
Qed.

(** The factor of a diagonal matrix is diagonal. *)
Lemma cholesky_diag n M L : is_cholesky n M L -> (forall i j, (i < n)%nat -> (j < n)%nat -> i <> j -> M i j = 0) ->
  forall i j, (i < n)%nat -> (j < n)%nat -> i <> j -> L i j = 0.
Proof.
  intros (Hp & Ht & Hm) Hd.
  assert (K : forall j, (j < n)%nat -> forall i, (j < i < n)%nat -> L i j = 0).
  { induction j as [j IH] using lt_wf_ind. intros Hj i Hi.
    specialize (Hm i j ltac:(lia) Hj). rewrite Hd in Hm by lia.
    unfold mmul, transpose in Hm.
    assert (E : sumn n (fun k => L i k * L j k) = L i j * L j j).
    { rewrite <- (sumn_delta_r n j (fun k => L i k * L j k) Hj). apply sumn_ext. intros k Hk. unfold delta.
      destruct (Nat.eqb_spec j k) as [<-|Hne]; [ring|].
      destruct (Nat.lt_ge_cases k j).
      - rewrite (IH k ltac:(auto) ltac:(lia) j) by lia. ring.
      - rewrite (Ht j k) by lia. ring. }
    rewrite E in Hm. specialize (Hp j Hj). nra. }
  intros i j Hi Hj Hne. destruct (Nat.lt_ge_cases i j); [apply Ht; lia|]. apply K; lia.
Qed.

Lemma quad_cholesky n M L w : (forall i j, (i < n)%nat -> (j < n)%nat -> mmul n L (transpose L) i j = M i j) ->
  quad n M w = dot n (mv n (transpose L) w) (mv n (transpose L) w).
Proof.
  intros H. rewrite (quad_ext n M (fun i j => sumn n (fun k => L i k * L j k)) w w); auto.
  - rewrite quad_gram. unfold dot, mv, dot, transpose. apply sumn_ext. intros. cbv zeta. reflexivity.
  - intros i j Hi Hj. rewrite <- H by auto. reflexivity.
Qed.

Lemma mv_diag n L w i : (i < n)%nat -> (forall i j, (i < n)%nat -> (j < n)%nat -> i <> j -> L i j = 0) ->
  mv n L w i = L i i * w i.
Proof.
  intros Hi Hd. unfold mv, dot. rewrite <- (sumn_delta_r n i (fun j => L i j * w j) Hi). apply sumn_ext.
  intros j Hj. unfold delta. destruct (Nat.eqb_spec i j) as [<-|Hne]; [ring|]. rewrite Hd by auto. ring.
Qed.

Lemma norm_diag n M L w : is_cholesky n M L -> (forall i j, (i < n)%nat -> (j < n)%nat -> i <> j -> M i j = 0) ->
  norm2 n (mv n L w) = sqrt (quad n M w).
Proof.
  intros HL Hd. pose proof (cholesky_diag n M L HL Hd) as HD. destruct HL as (_ & _ & Hm).
  rewrite (quad_cholesky n M L) by auto. unfold norm2. f_equal. apply dot_ext; intros i Hi.
  all: rewrite !mv_diag; auto; intros; unfold transpose; apply HD; auto.
Qed.

(** * Robust optimiser *)
Lemma robust_feasible n mean L pen cap G A x :
  cp_feasible (robust_cp n mean L pen cap G A) x <->
  constrained n G A x /\ norm2 n (mv n L x) <= x n /\ match cap with Some g => x n <= sqrt g | None => True end.
Proof.
  unfold cp_feasible, robust_cp; simpl.
  assert (Hh : dot (n + 1) (hcat n zrow (cst (-1))) x = - x n).
  { rewrite dot_hcat, dot_zrow, dot_cst1. unfold shift. rewrite Nat.add_0_r. ring. }
  assert (Hs : soc_ok (n + 1) (hcat n zrow (cst (-1)) :: map (fun i => hcat n (ropp (L i)) zrow) (seq 0 n)) x <-> norm2 n (mv n L x) <= x n).
  { rewrite soc_map, Hh, Ropp_involutive. unfold norm2.
    rewrite (sumn_ext n (fun i => dot (n + 1) (hcat n (ropp (L i)) zrow) x * dot (n + 1) (hcat n (ropp (L i)) zrow) x)
              (fun i => mv n L x i * mv n L x i)); [reflexivity|].
    intros i Hi. rewrite dot_hcat_pad, dot_ropp. unfold mv. ring. }
  assert (Hcap : dot (n + 1) (eye_row n) x = x n) by (apply dot_eye; lia).
  split.
  - intros (H1 & H2 & H3). split; [split|split].
    + intros g h Hi. specialize (H1 (hcat n g zrow) h). rewrite dot_hcat_pad in H1. apply H1, in_or_app. left.
      apply in_map_iff. exists (g, h). auto.
    + intros a b Hi. specialize (H2 (hcat n a zrow) b). rewrite dot_hcat_pad in H2. apply H2.
      apply in_map_iff. exists (a, b). auto.
    + apply Hs. apply H3. auto.
    + destruct cap as [g|]; auto. specialize (H1 (eye_row n) (sqrt g)). rewrite Hcap in H1. apply H1, in_or_app. right. simpl. auto.
  - intros ([H1 H2] & H3 & H4). split; [|split].
    + intros g h Hi. apply in_app_or in Hi as [Hi|Hi].
      * apply in_map_iff in Hi as ([g' h'] & E & Hi). injection E as <- <-. simpl. rewrite dot_hcat_pad. auto.
      * destruct cap as [c|]; [|destruct Hi]. destruct Hi as [Hi|[]]. injection Hi as <- <-. rewrite Hcap. auto.
    + intros a b Hi. apply in_map_iff in Hi as ([a' b'] & E & Hi). injection E as <- <-. simpl. rewrite dot_hcat_pad. auto.
    + intros blk [<-|[]]. apply Hs. auto.
Qed.

Lemma robust_obj n mean L pen cap G A x :
  cp_obj (robust_cp n mean L pen cap G A) x = - dot n mean x + pen * x n.
Proof.
  unfold cp_obj; simpl. rewrite dot_hcat, dot_ropp, dot_cst1. unfold shift. rewrite Nat.add_0_r. reflexivity.
Qed.

Lemma norm2_ext n u v : (forall i, (i < n)%nat -> u i = v i) -> norm2 n u = norm2 n v.
Proof. intros H. unfold norm2. f_equal. apply dot_ext; auto. Qed.
Lemma mv_ext n L u v i : (forall i, (i < n)%nat -> u i = v i) -> mv n L u i = mv n L v i.
Proof. intros H. apply dot_ext_r. auto. Qed.

Lemma robust_socp_l conelp n mean L hc pen cap G A r : exact_cp conelp -> 0 <= pen ->
  robust_socp conelp n mean L hc pen cap G A = Ok r ->
  hc = false /\ r_return r = dot n mean (r_weights r) /\
  minimises (fun w => constrained n G A w /\ match cap with Some g => norm2 n (mv n L w) <= sqrt g | None => True end)
    (fun w => - dot n mean w + pen * norm2 n (mv n L w)) (r_weights r) /\
  norm2 n (mv n L (r_weights r)) <= r_risk r /\ (0 < pen -> r_risk r = norm2 n (mv n L (r_weights r))) /\
  match cap with Some g => r_risk r <= sqrt g | None => True end.
Proof.
  intros Hs Hpen H. unfold robust_socp in H. destruct hc; [discriminate|]. split; auto.
  destruct (conelp _) as [x|] eqn:E; [|discriminate]. injection H as <-. simpl. split; auto.
  apply Hs in E as [Hf Ho]. apply robust_feasible in Hf as (Hc & Hn & Hcap).
  assert (Hpt : forall w', constrained n G A w' -> match cap with Some g => norm2 n (mv n L w') <= sqrt g | None => True end ->
    - dot n mean x + pen * x n <= - dot n mean w' + pen * norm2 n (mv n L w')).
  { intros w' Hw' Hcap'. set (y := hcat n w' (cst (norm2 n (mv n L w')))).
    assert (Hy : forall i, (i < n)%nat -> y i = w' i) by (intros; apply hcat_l; auto).
    assert (Hyn : y n = norm2 n (mv n L w')).
    { unfold y, hcat. rewrite Nat.ltb_irrefl. reflexivity. }
    assert (Hd : forall g, dot n g y = dot n g w') by (intros; apply dot_ext_r; auto).
    specialize (Ho y). rewrite !robust_obj, Hd, Hyn in Ho. apply Ho. apply robust_feasible.
    split; [|split].
    - destruct Hw' as [B1 B2]. split; intros; rewrite Hd; auto.
    - rewrite Hyn. right. apply norm2_ext. intros. apply mv_ext; auto.
    - rewrite Hyn. destruct cap; auto. }
  split; [split|split; [|split]]; auto.
  - split; auto. destruct cap; auto. lra.
  - intros w' [Hw' Hcap']. specialize (Hpt w' Hw' Hcap').
    eapply Rle_trans; [|exact Hpt]. assert (pen * norm2 n (mv n L x) <= pen * x n) by (apply Rmult_le_compat_l; auto). lra.
  - intros Hp. assert (K : - dot n mean x + pen * x n <= - dot n mean x + pen * norm2 n (mv n L x)).
    { apply Hpt; auto. destruct cap; auto. lra. }
    apply Rle_antisym; auto. apply Rmult_le_reg_l with pen; auto. lra.
Qed.

(** Worst case over an ellipsoid. *)
Lemma cauchy n u v : dot n u v * dot n u v <= dot n u u * dot n v v.
Proof.
  set (a := dot n u u). set (b := dot n v v). set (c := dot n u v).
  assert (K : forall t, 0 <= a + 2 * t * c + t * t * b).
  { intros t. replace (a + 2 * t * c + t * t * b) with (dot n (fun i => u i + t * v i) (fun i => u i + t * v i)).
    - apply dot_self_nonneg.
    - unfold a, b, c, dot. rewrite <- !sumn_scale, <- !sumn_plus. apply sumn_ext. intros; ring. }
  assert (Hb : 0 <= b) by apply dot_self_nonneg. assert (Ha : 0 <= a) by apply dot_self_nonneg.
  destruct (Req_dec b 0) as [E|Hb0].
  - rewrite E in *. destruct (Req_dec c 0) as [->|Hc]; [nra|]. exfalso.
    specialize (K (- (a + 1) / (2 * c))). replace (2 * (- (a + 1) / (2 * c)) * c) with (- (a + 1)) in K by (field; auto). lra.
  - specialize (K (- c / b)). replace (a + 2 * (- c / b) * c + - c / b * (- c / b) * b) with (a - c * c / b) in K by (field; auto).
    assert (0 < b) by lra. apply Rmult_le_reg_r with (/ b); [apply Rinv_0_lt_compat; auto|].
    replace (a * b * / b) with a by (field; auto). unfold Rdiv in K. lra.
Qed.

Lemma cauchy_norm n u v : Rabs (dot n u v) <= norm2 n u * norm2 n v.
Proof.
  unfold norm2. rewrite <- sqrt_mult by apply dot_self_nonneg. rewrite <- sqrt_Rsqr_abs. apply sqrt_le_1_alt.
  unfold Rsqr. apply cauchy.
Qed.

Lemma dot_mv_transpose n B v w : dot n (mv n B v) w = dot n v (mv n (transpose B) w).
Proof.
  unfold dot, mv, dot, transpose.
  transitivity (sumn n (fun i => sumn n (fun j => B i j * v j * w i))).
  - apply sumn_ext. intros i _. rewrite <- sumn_scale_r. reflexivity.
  - rewrite sumn_swap. apply sumn_ext. intros j _. rewrite <- sumn_scale. apply sumn_ext. intros; ring.
Qed.

Lemma norm2_nonneg n v : 0 <= norm2 n v.
Proof. apply sqrt_pos. Qed.

Lemma worst_return_l n mu B q w : 0 <= q ->
  worst_return n mu B q w (dot n mu w - q * norm2 n (mv n (transpose B) w)).
Proof.
  intros Hq. set (z := mv n (transpose B) w).
  assert (Hm : forall m v, (forall i, (i < n)%nat -> m i = mu i + q * mv n B v i) -> dot n m w = dot n mu w + q * dot n v z).
  { intros m v E. rewrite (dot_ext n m w (fun i => mu i + q * mv n B v i) w) by auto.
    rewrite dot_plus_l, dot_scale_l, dot_mv_transpose. reflexivity. }
  split.
  - intros m (v & Hv & E). rewrite (Hm m v E).
    pose proof (cauchy_norm n v z) as C. pose proof (norm2_nonneg n z). pose proof (norm2_nonneg n v).
    assert (C1 : - (norm2 n v * norm2 n z) <= dot n v z) by (pose proof (Rle_abs (- dot n v z)) as A; rewrite Rabs_Ropp in A; lra).
    assert (norm2 n v * norm2 n z <= norm2 n z) by nra. nra.
  - destruct (Req_dec (norm2 n z) 0) as [E0|E0].
    + exists mu. split.
      * exists zrow. split.
        { unfold norm2. rewrite dot_zrow, sqrt_0. lra. }
        intros i _. unfold mv. replace (dot n (B i) zrow) with 0 by (symmetry; rewrite dot_comm; apply dot_zrow). ring.
      * rewrite E0. ring.
    + set (v := fun i => - / norm2 n z * z i).
      exists (fun i => mu i + q * mv n B v i). split.
      * exists v. split; [|auto]. unfold norm2 at 1, v. rewrite dot_scale_l, dot_scale_r.
        assert (Ez : dot n z z = norm2 n z * norm2 n z) by (unfold norm2; rewrite sqrt_sqrt; auto; apply dot_self_nonneg).
        rewrite Ez. replace (- / norm2 n z * (- / norm2 n z * (norm2 n z * norm2 n z))) with 1 by (field; auto).
        rewrite sqrt_1. lra.
      * rewrite (Hm _ v) by auto. unfold v. rewrite dot_scale_l.
        assert (Ez : dot n z z = norm2 n z * norm2 n z) by (unfold norm2; rewrite sqrt_sqrt; auto; apply dot_self_nonneg).
        rewrite Ez. field. auto.
Qed.

Lemma worst_return_unique n mu B q w v v' : worst_return n mu B q w v -> worst_return n mu B q w v' -> v = v'.
Proof.
  intros [H1 (m & Hm & E)] [H2 (m' & Hm' & E')]. specialize (H1 m' Hm'). specialize (H2 m Hm). lra.
Qed.
