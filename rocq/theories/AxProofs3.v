(** Sharpe ratio, robust allocation and relaxed risk parity with inexact solvers. *)
From Coq Require Import List ZArith Lia Lra Psatz.
Import ListNotations.
From Verif Require Import Err RBase QpBase RiskSpec OptModel OptSpec OptProofs OptProofs2 OptProofs3 OptProofs4 AxSpec AxProofs AxProofs2.
Open Scope R_scope.
Open Scope list_scope.

(** ** Sharpe *)
Lemma near_sharpe d n mean cov G A rf y : near_qp d (sharpe_qp n mean cov G A rf) y ->
  (forall g h, In (g, h) (opt_rows G) -> dot n g y <= d) /\
  (forall a b, In (a, b) (opt_rows A) -> Rabs b <= 1 / 1000000000000 -> Rabs (dot n a y) <= d) /\
  Rabs (excess n mean rf y - 1) <= d.
Proof.
  unfold near_qp, sharpe_qp; cbn [qp_ineq qp_eq qp_n]. intros [H1 H2]. split; [|split].
  - intros g h Hi. assert (dot n g y <= 0 + d) by (apply H1, in_map_iff; exists (g, h); auto). lra.
  - intros a b Hi Hb. replace (dot n a y) with (dot n a y - 0) by ring. apply H2. right. apply in_map_iff. exists (a, b). split; auto.
    apply filter_In. split; auto. apply Rleb_true. exact Hb.
  - rewrite <- dot_excess. apply H2. left. reflexivity.
Qed.

Lemma sharpe_near solve n mean cov G A rf r d e : approx_qp d e solve -> 0 <= d < 1 -> 0 <= e -> homogeneous_set n G A ->
  max_sharpe solve n mean cov G A rf = Ok r ->
  0 < excess n mean rf (r_weights r) -> 0 < quad n cov (r_weights r) ->
  sumn n (r_weights r) = 1 /\
  near_constrained (d * excess n mean rf (r_weights r) / (1 - d)) n G A (r_weights r) /\
  r_return r = dot n mean (r_weights r) /\ r_risk r = sqrt (quad n cov (r_weights r)) /\
  forall w', constrained n G A w' -> sumn n w' = 1 -> 0 < quad n cov w' ->
    (1 - d) * sharpe n mean cov rf w' <= sharpe n mean cov rf (r_weights r) * sqrt (1 + e * sharpe n mean cov rf w' ^ 2).
Proof.
  intros Hs D E Hh H He Hq. unfold max_sharpe in H. destruct (solve (sharpe_qp n mean cov G A rf)) as [y|] eqn:ES; [|discriminate].
  destruct (Rltb_spec (Rabs (sumn n y)) (1 / 1000000000000)) as [Hc|Hc]; [discriminate|].
  injection H as <-. cbn [r_weights r_return r_risk] in *. apply Hs in ES as [Hf Ho]. apply near_sharpe in Hf as (F1 & F2 & F3).
  set (s := sumn n y) in *. set (w := fun i => y i / s) in *.
  assert (S0 : s <> 0) by (intros Z; rewrite Z, Rabs_R0 in Hc; lra).
  assert (Hw : forall i, w i = / s * y i) by (intros i; unfold w, Rdiv; ring).
  assert (EW : excess n mean rf w = / s * excess n mean rf y) by (rewrite (excess_ext n mean rf w _ Hw), excess_scale; reflexivity).
  assert (QW : quad n cov w = / s * / s * quad n cov y) by (rewrite (quad_ext_r n cov w _ Hw), quad_vec_scale; reflexivity).
  assert (EY : 1 - d <= excess n mean rf y) by (revert F3; unfold Rabs; destruct (Rcase_abs _); intros; lra).
  assert (SP : 0 < s).
  { apply inv_pos_sign; [exact S0|]. rewrite EW in He. destruct (Rlt_or_le 0 (/ s)) as [Q|Q]; [exact Q|]. exfalso.
    assert (0 <= - / s * excess n mean rf y) by (apply Rmult_le_pos; lra). lra. }
  assert (QY : 0 < quad n cov y).
  { rewrite QW in Hq. assert (I : 0 < / s * / s) by (apply Rmult_lt_0_compat; apply Rinv_0_lt_compat; exact SP). destruct (Rlt_or_le 0 (quad n cov y)) as [Q|Q]; [exact Q|]. exfalso.
    assert (0 <= / s * / s * - quad n cov y) by (apply Rmult_le_pos; lra). lra. }
  assert (SW : sumn n w = 1) by (apply (sumn_w n w y s); auto).
  assert (B : d / s <= d * excess n mean rf w / (1 - d)).
  { rewrite EW. apply (Rmult_le_reg_r (s * (1 - d))); [apply Rmult_lt_0_compat; lra|].
    replace (d / s * (s * (1 - d))) with (d * (1 - d)) by (field; lra). replace (d * (/ s * excess n mean rf y) / (1 - d) * (s * (1 - d))) with (d * excess n mean rf y) by (field; lra).
    apply Rmult_le_compat_l; lra. }
  assert (DW : forall g, dot n g w = dot n g y / s) by (intros g; rewrite (dot_ext_r n g w (fun i => / s * y i)) by auto; rewrite dot_scale_r; unfold Rdiv; ring).
  assert (IS : 0 < / s) by (apply Rinv_0_lt_compat; exact SP).
  split; [exact SW|]. split; [|split; [reflexivity|split; [reflexivity|]]].
  - destruct Hh as [HG HA]. split.
    + intros g h Hi. rewrite (HG g h Hi), DW. assert (dot n g y / s <= d / s) by (apply Rmult_le_compat_r; [lra|apply (F1 g h Hi)]). lra.
    + intros a b Hi. destruct (HA a b Hi) as [-> |[-> Ho1]].
      * rewrite Rminus_0_r, DW. unfold Rdiv at 1. rewrite Rabs_mult, (Rabs_right (/ s)) by lra.
        apply Rle_trans with (d / s); [|exact B]. apply Rmult_le_compat_r; [lra|]. apply (F2 a 0 Hi). rewrite Rabs_R0. lra.
      * rewrite dot_ones by exact Ho1. rewrite SW. replace (1 - 1) with 0 by ring. rewrite Rabs_R0. apply Rle_trans with (d / s); [|exact B]. apply Rmult_le_pos; lra.
  - intros w' Hw' Hsum Hq'. set (S' := sharpe n mean cov rf w').
    assert (SHW : sharpe n mean cov rf w = excess n mean rf y / sqrt (quad n cov y)).
    { unfold sharpe. rewrite EW, QW. rewrite sqrt_mult by (try apply Rmult_le_pos; lra). rewrite sqrt_square by lra.
      field. split; [apply Rgt_not_eq, sqrt_lt_R0, QY|lra]. }
    assert (PW : 0 < sharpe n mean cov rf w) by (rewrite SHW; apply Rdiv_lt_0_compat; [lra|apply sqrt_lt_R0, QY]).
    assert (RT : 1 <= sqrt (1 + e * S' ^ 2)) by (rewrite <- sqrt_1 at 1; apply sqrt_le_1_alt; pose proof (Rmult_le_pos e (S' ^ 2) E (pow2_ge_0 S')); lra).
    destruct (Rle_or_lt S' 0) as [Hn|Hp].
    + apply Rle_trans with 0; [|apply Rmult_le_pos; lra]. assert (0 <= (1 - d) * - S') by (apply Rmult_le_pos; lra). lra.
    + assert (EX : 0 < excess n mean rf w').
      { unfold S', sharpe in Hp. destruct (Rlt_or_le 0 (excess n mean rf w')) as [Q|Q]; [exact Q|]. exfalso.
        assert (0 < / sqrt (quad n cov w')) by (apply Rinv_0_lt_compat, sqrt_lt_R0, Hq'). unfold Rdiv in Hp. assert (0 <= - excess n mean rf w' * / sqrt (quad n cov w')) by (apply Rmult_le_pos; lra). lra. }
      set (x' := excess n mean rf w') in *.
      assert (ZQ : quad n cov y <= / x' * / x' * quad n cov w' + e).
      { rewrite <- quad_vec_scale. assert (Z : qp_feasible (sharpe_qp n mean cov G A rf) (fun i => / x' * w' i)).
        { apply sharpe_feasible. split; [|rewrite excess_scale; fold x'; field; lra]. apply hom_scale; [apply Rlt_le, Rinv_0_lt_compat, EX|]. apply hom_constrained; auto. }
        specialize (Ho _ Z). unfold qp_obj in Ho; cbn [qp_n qp_P qp_q sharpe_qp] in Ho. rewrite !quad_scale, !dot_zrow in Ho. lra. }
      assert (S2 : S' ^ 2 = x' * x' / quad n cov w').
      { unfold S', sharpe. fold x'. replace ((x' / sqrt (quad n cov w')) ^ 2) with (x' * x' / (sqrt (quad n cov w') * sqrt (quad n cov w'))) by (field; apply Rgt_not_eq, sqrt_lt_R0, Hq').
        rewrite sqrt_sqrt by lra. reflexivity. }
      assert (M : S' ^ 2 * quad n cov y <= 1 + e * S' ^ 2).
      { apply Rle_trans with (S' ^ 2 * (/ x' * / x' * quad n cov w' + e)); [apply Rmult_le_compat_l; [apply pow2_ge_0|exact ZQ]|].
        right. rewrite Rmult_plus_distr_l. rewrite S2 at 1. field. split; lra. }
      rewrite SHW. assert (SQ : 0 < sqrt (quad n cov y)) by (apply sqrt_lt_R0, QY).
      assert (K : S' * sqrt (quad n cov y) <= sqrt (1 + e * S' ^ 2)).
      { rewrite <- (sqrt_square (S' * sqrt (quad n cov y))) by (apply Rmult_le_pos; lra). apply sqrt_le_1_alt.
        replace (S' * sqrt (quad n cov y) * (S' * sqrt (quad n cov y))) with (S' ^ 2 * (sqrt (quad n cov y) * sqrt (quad n cov y))) by ring. rewrite sqrt_sqrt by lra. exact M. }
      apply (Rmult_le_reg_r (sqrt (quad n cov y))); [exact SQ|].
      replace (excess n mean rf y / sqrt (quad n cov y) * sqrt (1 + e * S' ^ 2) * sqrt (quad n cov y)) with (excess n mean rf y * sqrt (1 + e * S' ^ 2)) by (field; lra).
      replace ((1 - d) * S' * sqrt (quad n cov y)) with ((1 - d) * (S' * sqrt (quad n cov y))) by ring.
      apply Rmult_le_compat; try lra. apply Rmult_le_pos; lra.
Qed.

(** ** Cones *)
Lemma near_soc_map d n (head : vec) (f : nat -> vec) m x :
  near_soc d n (head :: map f (seq 0 m)) x <-> sqrt (sumn m (fun i => dot n (f i) x * dot n (f i) x)) <= - dot n head x + d.
Proof.
  unfold near_soc; cbn [map]. rewrite !map_map, rsum_seq.
  rewrite (sumn_ext m (fun t => - dot n (f (0 + t)%nat) x * - dot n (f (0 + t)%nat) x)
             (fun i => dot n (f i) x * dot n (f i) x)) by (intros; simpl; ring).
  reflexivity.
Qed.
Lemma near_soc3 d n a b c x : near_soc d n [a; b; c] x <->
  sqrt (dot n b x * dot n b x + dot n c x * dot n c x) <= - dot n a x + d.
Proof.
  unfold near_soc; simpl.
  replace (- dot n b x * - dot n b x + (- dot n c x * - dot n c x + 0)) with
    (dot n b x * dot n b x + dot n c x * dot n c x) by ring. reflexivity.
Qed.

(** ** Robust *)
Lemma near_robust d n mean L pen cap G A x : near_cp d (robust_cp n mean L pen cap G A) x ->
  near_constrained d n G A x /\ norm2 n (mv n L x) <= x n + d /\ match cap with Some g => x n <= sqrt g + d | None => True end.
Proof.
  unfold near_cp, robust_cp; cbn [cp_lin cp_eq cp_soc cp_n].
  assert (Hh : dot (n + 1) (hcat n zrow (cst (-1))) x = - x n).
  { rewrite dot_hcat, dot_zrow, dot_cst1. unfold shift. rewrite Nat.add_0_r. ring. }
  assert (Hcap : dot (n + 1) (eye_row n) x = x n) by (apply dot_eye; lia).
  intros (H1 & H2 & H3). split; [split|split].
  - intros g h Hi. specialize (H1 (hcat n g zrow) h). rewrite dot_hcat_pad in H1. apply H1, in_or_app. left.
    apply in_map_iff. exists (g, h). auto.
  - intros a b Hi. specialize (H2 (hcat n a zrow) b). rewrite dot_hcat_pad in H2. apply H2.
    apply in_map_iff. exists (a, b). auto.
  - specialize (H3 _ (or_introl eq_refl)). rewrite near_soc_map, Hh, Ropp_involutive in H3. unfold norm2.
    rewrite (sumn_ext n (fun i => dot (n + 1) (hcat n (ropp (L i)) zrow) x * dot (n + 1) (hcat n (ropp (L i)) zrow) x)
              (fun i => mv n L x i * mv n L x i)) in H3; [exact H3|].
    intros i Hi. rewrite dot_hcat_pad, dot_ropp. unfold mv. ring.
  - destruct cap as [g|]; auto. specialize (H1 (eye_row n) (sqrt g)). rewrite Hcap in H1. apply H1, in_or_app. right. simpl. auto.
Qed.

Lemma robust_near conelp n mean L hc pen cap G A r d e : approx_cp d e conelp -> 0 <= pen ->
  robust_socp conelp n mean L hc pen cap G A = Ok r ->
  hc = false /\ r_return r = dot n mean (r_weights r) /\ near_constrained d n G A (r_weights r) /\
  within (e + pen * d) (fun w => constrained n G A w /\ match cap with Some g => norm2 n (mv n L w) <= sqrt g | None => True end)
    (fun w => - dot n mean w + pen * norm2 n (mv n L w)) (r_weights r) /\
  norm2 n (mv n L (r_weights r)) <= r_risk r + d /\
  match cap with Some g => r_risk r <= sqrt g + d | None => True end.
Proof.
  intros Hs Hpen H. unfold robust_socp in H. destruct hc; [discriminate|]. split; auto.
  destruct (conelp _) as [x|] eqn:E; [|discriminate]. injection H as <-. cbn [r_return r_weights r_risk]. split; auto.
  apply Hs in E as [Hf Ho]. apply near_robust in Hf as (Hc & Hn & Hcap). split; [exact Hc|]. split; [|split; [exact Hn|exact Hcap]].
  intros w' [Hw' Hcap']. set (y := hcat n w' (cst (norm2 n (mv n L w')))).
  assert (Hy : forall i, (i < n)%nat -> y i = w' i) by (intros; apply hcat_l; auto).
  assert (Hyn : y n = norm2 n (mv n L w')) by (unfold y, hcat; rewrite Nat.ltb_irrefl; reflexivity).
  assert (Hd : forall g, dot n g y = dot n g w') by (intros; apply dot_ext_r; auto).
  specialize (Ho y). rewrite !robust_obj, Hd, Hyn in Ho.
  assert (K : - dot n mean x + pen * x n <= - dot n mean w' + pen * norm2 n (mv n L w') + e).
  { apply Ho. apply robust_feasible. split; [|split].
    - destruct Hw' as [B1 B2]. split; intros; rewrite Hd; auto.
    - rewrite Hyn. right. apply norm2_ext. intros. apply mv_ext; auto.
    - rewrite Hyn. destruct cap; auto. }
  assert (pen * norm2 n (mv n L x) <= pen * (x n + d)) by (apply Rmult_le_compat_l; auto). lra.
Qed.

(** ** Relaxed risk parity *)
Lemma rrp_near_point d n mean cov L bud lam G A target x : 0 <= d -> (forall i, (i < n)%nat -> 0 <= bud i) ->
  near_cp d (rrp_cp n mean cov L bud lam G A target) x ->
  near_rrp d n mean cov L bud lam G A target x (shift n x) (tl4 n x 0%nat) (tl4 n x 1%nat) (tl4 n x 2%nat).
Proof.
  intros D Hbud (H1 & H2 & H3). unfold rrp_cp in H1, H2, H3; cbn [cp_lin cp_eq cp_soc cp_n] in H1, H2, H3.
  assert (K1 : forall i, (i < n)%nat -> - d <= x i).
  { intros i Hi. specialize (H1 (xrow n (ropp (eye_row i))) 0). rewrite dot_xrow, dot_ropp, dot_eye in H1 by auto.
    enough (- x i <= 0 + d) by lra. apply H1, (in_rrp_lin n mean cov L bud lam G A target). left; eauto. }
  assert (K2 : forall i, (i < n)%nat -> - d <= shift n x i).
  { intros i Hi. specialize (H1 (zetarow n (ropp (eye_row i))) 0). rewrite dot_zetarow, dot_ropp, dot_eye in H1 by auto.
    enough (- shift n x i <= 0 + d) by lra. apply H1, (in_rrp_lin n mean cov L bud lam G A target). right; left; eauto. }
  assert (K3 : forall i, (i < n)%nat -> Rabs (shift n x i - mv n cov x i) <= d).
  { intros i Hi. specialize (H2 (rplus (xrow n (ropp (cov i))) (zetarow n (eye_row i))) 0).
    rewrite dot_rplus, dot_xrow, dot_zetarow, dot_ropp, dot_eye in H2 by auto. unfold mv.
    replace (shift n x i - dot n (cov i) x) with (- dot n (cov i) x + shift n x i - 0) by ring. apply H2. unfold rrp_eq. apply in_or_app. left.
    apply in_map_seq. eauto. }
  assert (S1 := H3 _ (or_introl eq_refl)). assert (S2 := H3 _ (or_intror (or_introl eq_refl))).
  constructor; auto.
  - split; [|split].
    + specialize (H1 (tailrow n (vec4 (-1) 0 0 0)) 0). rewrite dot_tailrow in H1.
      enough (-1 * tl4 n x 0%nat + 0 * tl4 n x 1%nat + 0 * tl4 n x 2%nat + 0 * tl4 n x 3%nat <= 0 + d) by lra.
      apply H1, (in_rrp_lin n mean cov L bud lam G A target). tauto.
    + specialize (H1 (tailrow n (vec4 0 (-1) 0 0)) 0). rewrite dot_tailrow in H1.
      enough (0 * tl4 n x 0%nat + -1 * tl4 n x 1%nat + 0 * tl4 n x 2%nat + 0 * tl4 n x 3%nat <= 0 + d) by lra.
      apply H1, (in_rrp_lin n mean cov L bud lam G A target). tauto.
    + specialize (H1 (tailrow n (vec4 0 0 (-1) 0)) 0). rewrite dot_tailrow in H1.
      enough (0 * tl4 n x 0%nat + 0 * tl4 n x 1%nat + -1 * tl4 n x 2%nat + 0 * tl4 n x 3%nat <= 0 + d) by lra.
      apply H1, (in_rrp_lin n mean cov L bud lam G A target). tauto.
  - split.
    + intros g h Hi. rewrite <- dot_xrow. apply H1, (in_rrp_lin n mean cov L bud lam G A target). do 5 right. left. eauto.
    + intros a b Hi. rewrite <- dot_xrow. apply H2. unfold rrp_eq. apply in_or_app. right. apply in_or_app. right.
      apply in_map_iff. exists (a, b). auto.
  - intros Hb. apply budget_test in Hb. unfold rrp_eq in H2. rewrite Hb in H2.
    specialize (H2 (xrow n (cst 1)) 1). rewrite dot_xrow in H2. rewrite <- (dot_ones n (cst 1)) by reflexivity.
    apply H2. apply in_or_app. right. simpl. auto.
  - destruct target as [t|] eqn:Et; cbn [near_meets]; auto. specialize (H1 (xrow n (ropp mean)) (- t)). rewrite dot_xrow, dot_ropp in H1.
    enough (- dot n mean x <= - t + d) by lra. apply H1. unfold rrp_lin. rewrite !in_app_iff. simpl. tauto.
  - intros i Hi. assert (Q : near_soc d (n + (n + 4)) [ rplus (xrow n (ropp (eye_row i))) (zetarow n (ropp (eye_row i)));
                  tailrow n (vec4 0 (- (2 * sqrt (bud i))) 0 0);
                  rplus (xrow n (ropp (eye_row i))) (zetarow n (eye_row i)) ] x).
    { apply H3. unfold rrp_soc. rewrite !in_app_iff. right. right. apply in_map_seq. exists i. split; [exact Hi|reflexivity]. }
    rewrite near_soc3, !dot_rplus, !dot_xrow, !dot_zetarow, dot_tailrow, !dot_ropp, !dot_eye in Q by auto.
    assert (Eb : sqrt (bud i) * sqrt (bud i) = bud i) by (apply sqrt_sqrt; auto).
    set (sb := sqrt (bud i)) in *. set (g := tl4 n x 1%nat) in *. set (a := x i) in *. set (z := shift n x i) in *.
    replace (0 * tl4 n x 0%nat + - (2 * sb) * g + 0 * tl4 n x 2%nat + 0 * tl4 n x 3%nat) with (- (2 * sb) * g) in Q by ring.
    apply sqrt_le_iff in Q as [Q1 Q2]; [|apply Rplus_le_le_0_compat; apply Rle_0_sqr].
    clearbody sb g a z. rewrite <- Eb. clear - Q1 Q2. nra.
  - rewrite near_soc_map, dot_tailrow in S1. rewrite near_soc3, !dot_tailrow in S2.
    assert (En : sqrt (INR n) * sqrt (INR n) = INR n) by (apply sqrt_sqrt, pos_INR).
    set (sn := sqrt (INR n)) in *. set (psi := tl4 n x 0%nat) in *. set (rho := tl4 n x 2%nat) in *. set (q := tl4 n x 3%nat) in *. set (g := tl4 n x 1%nat) in *.
    rewrite (sumn_ext n (fun i => dot (n + (n + 4)) (xrow n (ropp (L i))) x * dot (n + (n + 4)) (xrow n (ropp (L i))) x)
       (fun i => mv n L x i * mv n L x i)) in S1 by (intros; rewrite dot_xrow, dot_ropp; unfold mv; ring).
    change (sqrt (sumn n (fun i => mv n L x i * mv n L x i))) with (norm2 n (mv n L x)) in S1.
    match type of S2 with sqrt ?e <= _ => assert (He : 0 <= e) by nra end.
    apply sqrt_le_iff in S2 as [S2 S4]; auto. rewrite <- En.
    assert (QQ : Rmax 0 (norm2 n (mv n L x) - d) ^ 2 <= q ^ 2).
    { unfold Rmax. destruct (Rle_dec 0 (norm2 n (mv n L x) - d)) as [P|P]; [apply pow_incr; lra|]. pose proof (pow2_ge_0 q). lra. }
    nra.
  - intros Hl. assert (Q : near_soc d (n + (n + 4)) (tailrow n (vec4 0 0 (-1) 0) ::
       map (fun i => xrow n (fun j => if (i =? j)%nat then - (sqrt lam * theta_sqrt cov i) else 0)) (seq 0 n)) x).
    { apply H3. unfold rrp_soc. rewrite !in_app_iff. right. left. rewrite (proj2 (Rltb_true 0 lam) Hl). left. reflexivity. }
    rewrite near_soc_map, dot_tailrow in Q.
    assert (E : sumn n (fun i => dot (n + (n + 4)) (xrow n (fun j => if (i =? j)%nat then - (sqrt lam * theta_sqrt cov i) else 0)) x *
      dot (n + (n + 4)) (xrow n (fun j => if (i =? j)%nat then - (sqrt lam * theta_sqrt cov i) else 0)) x) =
      lam * sumn n (fun i => Rmax (cov i i) 0 * x i ^ 2)).
    { rewrite <- sumn_scale. apply sumn_ext. intros i Hi. rewrite dot_xrow.
      assert (DD : dot n (fun j => if (i =? j)%nat then - (sqrt lam * theta_sqrt cov i) else 0) x = - (sqrt lam * theta_sqrt cov i) * x i).
      { unfold dot. rewrite <- (sumn_delta_r n i (fun j => - (sqrt lam * theta_sqrt cov i) * x j) Hi). apply sumn_ext.
        intros j _. unfold delta. destruct (i =? j)%nat; ring. }
      rewrite DD, <- (theta_sq cov i). pose proof (sqrt_sqrt lam ltac:(lra)) as El.
      replace (- (sqrt lam * theta_sqrt cov i) * x i * (- (sqrt lam * theta_sqrt cov i) * x i)) with
        ((sqrt lam * sqrt lam) * (theta_sqrt cov i * theta_sqrt cov i * x i ^ 2)) by ring.
      rewrite El. ring. }
    rewrite E in Q. lra.
Qed.

Lemma rrp_near conelp lp chol n mean cov0 G A rb lam target mint r d e : approx_cp d e conelp -> exact_chol chol -> 0 <= d ->
  rrp_solve conelp lp chol n mean cov0 G A rb lam target mint = Ok r ->
  exists L bud j, risk_budgets n rb = Ok bud /\ 0 <= lam /\ 0 <= j <= 1 / 10000000 /\
    is_cholesky n (plus_jitter (symmetrise (symmetrise cov0)) j) L /\
    near_rrp d n mean (symmetrise cov0) L bud lam G A (rr_target r) (rr_weights r) (rr_marginal r) (rr_psi r) (rr_gamma r) (rr_rho r) /\
    rr_objective r = rr_psi r - rr_gamma r /\
    (forall x psi gamma rho, rrp_point n mean (symmetrise cov0) L bud lam G A (rr_target r) x psi gamma rho ->
       rr_objective r <= psi - gamma + e).
Proof.
  intros Hs Hch D H. unfold rrp_solve in H. apply bind_ok in H as (L & HL & H). apply bind_ok in H as (bud & HB & H).
  destruct (Rltb_spec lam 0) as [Hn|Hlam]; [discriminate|]. apply bind_ok in H as (mt & HM & H).
  destruct (conelp _) as [x|] eqn:E; [|discriminate]. injection H as <-. cbn [rr_target rr_weights rr_marginal rr_psi rr_gamma rr_rho rr_objective].
  destruct (cholesky_pd_l chol n _ L Hch HL) as (j & J1 & _ & J2).
  assert (Hbud : forall i, (i < n)%nat -> 0 <= bud i) by (intros i Hi; apply Rlt_le; eapply risk_budgets_nonneg; eauto).
  apply Hs in E as [Hf Ho]. exists L, bud, j. split; [exact HB|]. split; [lra|]. split; [exact J1|]. split; [exact J2|].
  pose proof (rrp_near_point d n mean _ L bud lam G A (fst mt) x D Hbud Hf) as NP.
  assert (T : forall k, tl4 n x k = x (n + n + k)%nat) by (intros k; unfold tl4, shift; f_equal; lia).
  rewrite !T in NP. rewrite Nat.add_0_r in NP. split; [exact NP|]. split; [reflexivity|].
  intros x' psi gamma rho RP. destruct (rrp_complete n mean _ L bud lam G A (fst mt) Hbud x' psi gamma rho RP) as (y & Hy & Hyo).
  specialize (Ho y Hy). rewrite Hyo, rrp_obj, !T, Nat.add_0_r in Ho. exact Ho.
Qed.
