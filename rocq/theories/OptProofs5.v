(** Risk-parity consequences, target clipping, counterexamples. *)
From Verif Require Import RBase QpBase OptModel OptSpec OptProofs OptProofs2 OptProofs3 OptProofs4.
Open Scope R_scope.

Lemma sumn_eq_terms n f g : (forall i, (i < n)%nat -> g i <= f i) -> sumn n f = sumn n g ->
  forall i, (i < n)%nat -> f i = g i.
Proof.
  induction n as [|n IH]; intros Hle Hs i Hi; [lia|]. simpl in Hs.
  assert (sumn n g <= sumn n f) by (apply sumn_le; auto). assert (g n <= f n) by auto.
  destruct (Nat.eq_dec i n) as [->|]; [lra|]. apply IH; auto; [lra|lia].
Qed.

Lemma symmetrise_diag M i : symmetrise M i i = M i i.
Proof. unfold symmetrise. lra. Qed.

(** Uncorrelated assets, no extra constraints: exact risk budgeting. *)
Lemma rrp_diag conelp lp chol n mean cov rb mint r : exact_cp conelp -> exact_chol chol -> (2 <= n)%nat ->
  (forall i, (i < n)%nat -> 0 < cov i i) ->
  (forall i j, (i < n)%nat -> (j < n)%nat -> i <> j -> cov i j = 0) ->
  chol n (symmetrise (symmetrise cov)) <> None ->
  rrp_solve conelp lp chol n mean cov None None rb 0 None mint = Ok r ->
  (forall i, (i < n)%nat -> 0 < rr_weights r i) /\ sumn n (rr_weights r) = 1 /\
  (forall i j, (i < n)%nat -> (j < n)%nat ->
     risk_contribution n cov (rr_weights r) i * share n rb j = risk_contribution n cov (rr_weights r) j * share n rb i) /\
  rr_objective r < 0.
Proof.
  intros Hs Hch Hn Hpos Hdiag Hsome H.
  destruct (rrp_solve_inv _ _ _ _ _ _ _ _ _ _ _ _ _ Hs Hch H) as (L & bud & j & _ & _ & Hb & _ & Hj & HL & [Ht _] & Hp & _ & Hobj & Hopt).
  rewrite (Hj Hsome) in HL. rewrite Ht in *. clear Ht.
  set (C := symmetrise cov) in *.
  assert (HC : forall i k, (i < n)%nat -> (k < n)%nat -> C i k = cov i k).
  { intros i k Hi Hk. unfold C, symmetrise. destruct (Nat.eq_dec i k) as [->|Hne]; [lra|]. rewrite !Hdiag by auto. lra. }
  assert (HCd : forall i k, (i < n)%nat -> (k < n)%nat -> i <> k -> C i k = 0) by (intros; rewrite HC; auto).
  assert (HM : forall i k, (i < n)%nat -> (k < n)%nat -> plus_jitter (symmetrise C) 0 i k = C i k).
  { intros i k Hi Hk. unfold plus_jitter, symmetrise. rewrite !HC by auto.
    destruct (Nat.eq_dec i k) as [->|Hne]; [lra|]. rewrite !Hdiag by auto. lra. }
  apply (is_cholesky_ext n _ C L HM) in HL.
  set (x := rr_weights r) in *. set (psi := rr_psi r) in *. set (g := rr_gamma r) in *. set (rho := rr_rho r) in *.
  destruct Hp as [P1 P2 P3 P4 P5 P6 P7 P8 P9].
  set (s := fun i => sqrt (C i i)).
  assert (Hsp : forall i, (i < n)%nat -> 0 < s i) by (intros i Hi; apply sqrt_lt_R0; rewrite HC; auto).
  assert (Hss : forall i, (i < n)%nat -> s i * s i = C i i) by (intros i Hi; apply sqrt_sqrt; rewrite HC by auto; apply Rlt_le; auto).
  assert (Hmv : forall w i, (i < n)%nat -> mv n C w i = C i i * w i) by (intros w i Hi; apply mv_diag; auto).
  assert (Hrc : forall w i, (i < n)%nat -> risk_contribution n C w i = C i i * w i ^ 2) by (intros w i Hi; unfold risk_contribution; rewrite Hmv by auto; ring).
  assert (Hnorm : forall w, dot n (mv n L w) (mv n L w) = sumn n (fun i => C i i * w i ^ 2)).
  { intros w. pose proof (norm_diag n C L w HL HCd) as E. unfold norm2 in E.
    apply sqrt_inj in E.
    - rewrite E. rewrite quad_mv. unfold dot. apply sumn_ext. intros i Hi. rewrite Hmv by auto. ring.
    - apply dot_self_nonneg.
    - rewrite quad_mv. apply sumn_nonneg. intros i Hi. rewrite Hmv by auto. specialize (Hpos i Hi). rewrite <- HC in Hpos by auto.
      replace (w i * (C i i * w i)) with (C i i * (w i * w i)) by ring. apply Rmult_le_pos; [lra|apply Rle_0_sqr]. }
  destruct (risk_budgets_l n rb bud Hb ltac:(lia)) as (k & Hk & Hbud & Hsum).
  assert (Hbp : forall i, (i < n)%nat -> 0 < bud i) by (intros i Hi; eapply risk_budgets_nonneg; eauto).
  set (B := sumn n bud) in *. set (N := INR n) in *.
  assert (HN2 : 2 <= N) by (unfold N; replace 2 with (INR 2) by (simpl; lra); apply le_INR; auto).
  assert (HB : 0 < B < 2).
  { assert (Hsum' := Hsum). pose proof (Rle_abs (B - 1)). pose proof (Rle_abs (- (B - 1))) as K. rewrite Rabs_Ropp in K. lra. }
  set (c := sqrt (B / N)).
  assert (HBN : 0 < B / N < 1).
  { split; [apply Rdiv_lt_0_compat; lra|]. apply Rmult_lt_reg_r with N; [lra|]. unfold Rdiv. rewrite Rmult_assoc, Rinv_l by lra. lra. }
  assert (Hc : 0 < c < 1).
  { unfold c. split; [apply sqrt_lt_R0; lra|]. rewrite <- sqrt_1. apply sqrt_lt_1; lra. }
  assert (Hcc : c * c = B / N) by (apply sqrt_sqrt; lra).
  set (rb' := fun i => sqrt (bud i)).
  assert (Hrb : forall i, (i < n)%nat -> 0 < rb' i) by (intros i Hi; apply sqrt_lt_R0; auto).
  assert (Hrr : forall i, (i < n)%nat -> rb' i * rb' i = bud i) by (intros i Hi; apply sqrt_sqrt; apply Rlt_le; auto).
  set (D := sumn n (fun i => rb' i / s i)).
  assert (HD : 0 < D).
  { unfold D. destruct n as [|m]; [lia|]. simpl.
    assert (0 <= sumn m (fun i => rb' i / s i)).
    { apply sumn_nonneg. intros i Hi. apply Rlt_le, Rdiv_lt_0_compat; [apply Hrb|apply Hsp]; lia. }
    assert (0 < rb' m / s m) by (apply Rdiv_lt_0_compat; [apply Hrb|apply Hsp]; lia). lra. }
  set (gs := / D).
  assert (Hgs : 0 < gs) by (apply Rinv_0_lt_compat; auto).
  (* the risk-budget portfolio *)
  assert (Hstar : rrp_point n mean C L bud 0 None None None (fun i => gs * (rb' i / s i)) (gs * c) gs 0).
  { assert (Hx : forall i, (i < n)%nat -> 0 < gs * (rb' i / s i)).
    { intros i Hi. apply Rmult_lt_0_compat; auto. apply Rdiv_lt_0_compat; auto. }
    assert (Hcx : forall i, (i < n)%nat -> C i i * (gs * (rb' i / s i)) ^ 2 = bud i * gs ^ 2).
    { intros i Hi. rewrite <- (Hss i Hi), <- (Hrr i Hi). specialize (Hsp i Hi). field. lra. }
    constructor.
    - intros i Hi. apply Rlt_le. auto.
    - intros i Hi. rewrite Hmv by auto. apply Rmult_le_pos; [rewrite HC by auto; apply Rlt_le; auto|apply Rlt_le; auto].
    - repeat split; try lra. apply Rmult_le_pos; lra.
    - split; simpl; tauto.
    - intros _. rewrite sumn_scale. fold D. unfold gs. field. lra.
    - exact I.
    - intros i Hi. rewrite Hrc, Hcx by auto. lra.
    - rewrite Hnorm. rewrite (sumn_ext n _ (fun i => bud i * gs ^ 2)) by auto. rewrite sumn_scale_r. fold B.
      replace ((gs * c) ^ 2) with (gs ^ 2 * (c * c)) by ring. rewrite Hcc. fold N. right. field. lra.
    - lra. }
  specialize (Hopt _ _ _ _ Hstar).
  assert (Hg0 : 0 <= g) by apply P3. assert (Hpsi0 : 0 <= psi) by apply P3.
  (* weights dominate the floor *)
  assert (Hxg : forall i, (i < n)%nat -> g * (rb' i / s i) <= x i).
  { intros i Hi. specialize (P7 i Hi). rewrite Hrc in P7 by auto. specialize (P1 i Hi). specialize (Hsp i Hi). specialize (Hrb i Hi).
    rewrite <- (Hss i Hi), <- (Hrr i Hi) in P7.
    assert (K : rb' i * g <= s i * x i).
    { apply Rsqr_incr_0; [unfold Rsqr; nra|nra|nra]. }
    apply Rmult_le_reg_r with (s i); auto. replace (g * (rb' i / s i) * s i) with (rb' i * g) by (field; lra). lra. }
  assert (Hsum1 : sumn n x = 1) by (apply P5; simpl; tauto).
  assert (HgD : g * D <= 1) by (unfold D; rewrite <- sumn_scale, <- Hsum1; apply sumn_le; auto).
  assert (Hggs : g <= gs).
  { apply Rmult_le_reg_r with D; auto. unfold gs. rewrite Rinv_l by lra. auto. }
  assert (Hpsi : g * c <= psi).
  { assert (K : g * g * B <= N * (psi * psi)).
    { rewrite Hnorm in P8. fold N in P8. assert (g ^ 2 * B <= sumn n (fun i => C i i * x i ^ 2)).
      { unfold B. rewrite <- sumn_scale. apply sumn_le. intros i Hi. specialize (P7 i Hi). rewrite Hrc in P7 by auto. lra. }
      assert (0 <= N * rho ^ 2) by (apply Rmult_le_pos; [lra|apply pow2_ge_0]). lra. }
    apply Rsqr_incr_0; [|nra|auto]. unfold Rsqr.
    replace (g * c * (g * c)) with (g * g * (c * c)) by ring. rewrite Hcc.
    apply Rmult_le_reg_r with N; [lra|]. replace (g * g * (B / N) * N) with (g * g * B) by (field; lra). lra. }
  rewrite Hobj in Hopt.
  assert (Hg : g = gs) by (apply Rle_antisym; auto; nra).
  assert (Hx : forall i, (i < n)%nat -> x i = g * (rb' i / s i)).
  { apply sumn_eq_terms; auto. rewrite sumn_scale. fold D. rewrite Hsum1, Hg. unfold gs. field. lra. }
  assert (Hrcx : forall i, (i < n)%nat -> risk_contribution n cov x i = bud i * g ^ 2).
  { intros i Hi. transitivity (risk_contribution n C x i).
    - unfold risk_contribution. f_equal. unfold mv. apply dot_ext; auto. intros; symmetry; apply HC; auto.
    - rewrite Hrc, Hx by auto. rewrite <- (Hss i Hi), <- (Hrr i Hi). specialize (Hsp i Hi). field. lra. }
  split; [|split; [exact Hsum1|split]].
  - intros i Hi. rewrite Hx, Hg by auto. apply Rmult_lt_0_compat; auto. apply Rdiv_lt_0_compat; auto.
  - intros i l Hi Hl. rewrite !Hrcx by auto. destruct (Hbud i Hi) as [-> _]. destruct (Hbud l Hl) as [-> _]. ring.
  - rewrite Hobj. nra.
Qed.

(** * Correlated assets: equal risk contributions are not returned.  Covariance [[1,4],[4,25]],
    factor [[1,0],[4,3]]. *)
Definition erc_cov : mat := fun i j => nth j (nth i [[1; 4]; [4; 25]] []) 0.
Definition erc_chol : mat := fun i j => nth j (nth i [[1; 0]; [4; 3]] []) 0.

Lemma erc_factor : is_cholesky 2 erc_cov erc_chol.
Proof.
  repeat split.
  - intros [|[|i]] Hi; try lia; unfold erc_chol; simpl; lra.
  - intros [|[|i]] [|[|j]] Hij; try lia; reflexivity.
  - intros [|[|i]] [|[|j]] Hi Hj; try lia; unfold mmul, transpose, erc_chol, erc_cov; simpl; ring.
Qed.

Lemma lower2_unique L : is_cholesky 2 erc_cov L -> L 0%nat 0%nat = 1 /\ L 0%nat 1%nat = 0 /\ L 1%nat 0%nat = 4 /\ L 1%nat 1%nat = 3.
Proof.
  intros (H1 & H2 & H3).
  pose proof (H1 0%nat ltac:(lia)) as P0. pose proof (H1 1%nat ltac:(lia)) as P1.
  pose proof (H2 0%nat 1%nat ltac:(lia)) as Z.
  pose proof (H3 0%nat 0%nat ltac:(lia) ltac:(lia)) as E00.
  pose proof (H3 1%nat 0%nat ltac:(lia) ltac:(lia)) as E10.
  pose proof (H3 1%nat 1%nat ltac:(lia) ltac:(lia)) as E11.
  unfold mmul, transpose, erc_cov in *. simpl in E00, E10, E11. rewrite Z in *.
  assert (A : L 0%nat 0%nat = 1) by nra. rewrite A in *.
  assert (B : L 1%nat 0%nat = 4) by lra. rewrite B in *.
  repeat split; auto. nra.
Qed.

Lemma rrp_erc_not conelp lp chol mean mint r : exact_cp conelp -> exact_chol chol ->
  chol 2%nat (symmetrise (symmetrise erc_cov)) <> None ->
  rrp_solve conelp lp chol 2 mean erc_cov None None None 0 None mint = Ok r ->
  risk_contribution 2 erc_cov (rr_weights r) 0 <> risk_contribution 2 erc_cov (rr_weights r) 1.
Proof.
  intros Hs Hch Hsome H Heq.
  destruct (rrp_solve_inv _ _ _ _ _ _ _ _ _ _ _ _ _ Hs Hch H) as (L & bud & j & _ & _ & Hb & _ & Hj & HL & [Ht _] & Hp & _ & Hobj & Hopt).
  rewrite (Hj Hsome) in HL. rewrite Ht in *. clear Ht.
  assert (HM : forall i k, (i < 2)%nat -> (k < 2)%nat -> plus_jitter (symmetrise (symmetrise erc_cov)) 0 i k = erc_cov i k).
  { intros [|[|i]] [|[|k]] Hi Hk; try lia; unfold plus_jitter, symmetrise, erc_cov; simpl; lra. }
  apply (is_cholesky_ext 2 _ erc_cov L HM) in HL. apply lower2_unique in HL as (L00 & L01 & L10 & L11).
  assert (HC : forall i k, (i < 2)%nat -> (k < 2)%nat -> symmetrise erc_cov i k = erc_cov i k).
  { intros [|[|i]] [|[|k]] Hi Hk; try lia; unfold symmetrise, erc_cov; simpl; lra. }
  assert (Hbud : bud = fun _ => 1 / INR 2) by (simpl in Hb; injection Hb as <-; reflexivity). subst bud. clear Hb.
  assert (Hmv0 : forall w, mv 2 (symmetrise erc_cov) w 0%nat = w 0%nat + 4 * w 1%nat) by (intros; unfold mv, dot, symmetrise, erc_cov; simpl; lra).
  assert (Hmv1 : forall w, mv 2 (symmetrise erc_cov) w 1%nat = 4 * w 0%nat + 25 * w 1%nat) by (intros; unfold mv, dot, symmetrise, erc_cov; simpl; lra).
  assert (HLx : forall w, dot 2 (mv 2 L w) (mv 2 L w) = w 0%nat * w 0%nat + (4 * w 0%nat + 3 * w 1%nat) * (4 * w 0%nat + 3 * w 1%nat)).
  { intros w. unfold mv, dot. simpl. rewrite L00, L01, L10, L11. ring. }
  set (x := rr_weights r) in *.
  destruct Hp as [P1 P2 P3 P4 P5 P6 P7 P8 P9].
  (* half/half is feasible *)
  set (h := fun _ : nat => / 2 : R).
  assert (Hh : rrp_point 2 mean (symmetrise erc_cov) L (fun _ => 1 / INR 2) 0 None None None h (5 / 2) (sqrt (5 / 2)) 0).
  { assert (E : sqrt (5 / 2) ^ 2 = 5 / 2) by (rewrite <- Rsqr_pow2; apply Rsqr_sqrt; lra).
    constructor.
    - intros. unfold h. lra.
    - intros [|[|i]] Hi; try lia; [rewrite Hmv0|rewrite Hmv1]; unfold h; lra.
    - repeat split; try lra. apply sqrt_pos.
    - split; simpl; tauto.
    - intros _. unfold h. simpl. lra.
    - exact I.
    - intros [|[|i]] Hi; try lia; rewrite E; unfold risk_contribution; [rewrite Hmv0|rewrite Hmv1]; unfold h; simpl INR; lra.
    - rewrite HLx. unfold h. simpl INR. lra.
    - lra. }
  specialize (Hopt _ _ _ _ Hh).
  (* equal contributions pin the portfolio *)
  assert (Hsum : x 0%nat + x 1%nat = 1).
  { assert (E : sumn 2 x = 1) by (apply P5; simpl; tauto). simpl in E. lra. }
  pose proof (P1 0%nat ltac:(lia)) as X0. pose proof (P1 1%nat ltac:(lia)) as X1.
  pose proof (P7 0%nat ltac:(lia)) as F0.
  assert (E0 : risk_contribution 2 erc_cov x 0 = x 0%nat * (x 0%nat + 4 * x 1%nat)) by (unfold risk_contribution, mv, dot, erc_cov; simpl; ring).
  assert (E1 : risk_contribution 2 erc_cov x 1 = x 1%nat * (4 * x 0%nat + 25 * x 1%nat)) by (unfold risk_contribution, mv, dot, erc_cov; simpl; ring).
  rewrite E0, E1 in Heq.
  assert (Hx : x 0%nat = 5 * x 1%nat) by nra.
  assert (V1 : x 1%nat = 1 / 6) by lra. assert (V0 : x 0%nat = 5 / 6) by lra.
  unfold risk_contribution in F0. rewrite Hmv0, V0, V1 in F0. rewrite HLx, V0, V1 in P8. simpl INR in F0, P8.
  assert (G1 : rr_gamma r <= sqrt (5 / 2)).
  { apply Rsqr_incr_0; [|apply P3|apply sqrt_pos]. rewrite Rsqr_sqrt by lra. unfold Rsqr. nra. }
  assert (G2 : 5 / 2 < rr_psi r).
  { apply Rsqr_incrst_0; [|lra|apply P3]. unfold Rsqr. pose proof (pow2_ge_0 (rr_rho r)). nra. }
  lra.
Qed.

(** * Targets *)
Lemma clip_l m t mint : let tol := Rmax (1 / 100000000) (1 / 1000 * Rabs m) in
  (t < m - tol -> (forall f, mint = Some f -> f <= t) -> clip_target m t mint = t) /\
  (m - tol <= t -> (forall f, mint = Some f -> f <= m - tol) -> clip_target m t mint = m - tol) /\
  (forall f, mint = Some f -> f <= clip_target m t mint) /\
  (clip_target m t mint <= m - tol \/ mint = Some (clip_target m t mint)).
Proof.
  intros tol. unfold clip_target. fold tol. destruct (Rleb_spec (m - tol) t) as [H|H]; destruct mint as [f|].
  all: repeat split; intros; try lra; try (left; lra); try discriminate.
  all: try (injection H0 as <-; apply Rmax_r).
  - rewrite Rmax_left; auto.
  - destruct (Rle_dec f (m - tol)); [left; rewrite Rmax_left; lra|right; rewrite Rmax_right; auto; lra].
  - rewrite Rmax_left; auto.
  - destruct (Rle_dec f t); [left; rewrite Rmax_left; lra|right; rewrite Rmax_right; auto; lra].
Qed.

(** The reported maximal return is the maximum over long-only portfolios meeting the user's
    constraints, with the budget row when the user gives no equalities. *)
Lemma return_lp_feasible n mean G A x : cp_feasible (rrp_return_lp n mean G A) x <-> return_set n G A x.
Proof.
  unfold cp_feasible, return_set, rrp_return_lp; simpl. split.
  - intros (H1 & H2 & _). repeat split.
    + intros i Hi. specialize (H1 (ropp (eye_row i)) 0). rewrite dot_ropp, dot_eye in H1 by auto.
      enough (- x i <= 0) by lra. apply H1, in_or_app. right. apply in_map_seq. eauto.
    + intros g h Hi. apply H1, in_or_app. auto.
    + destruct A as [a|]; auto. rewrite <- (dot_ones n (cst 1)) by reflexivity. apply H2. simpl. auto.
  - intros (H1 & H2 & H3). split; [|split; [|simpl; tauto]].
    + intros g h Hi. apply in_app_or in Hi as [Hi|Hi]; auto. apply in_map_seq in Hi as (i & Hi & E). injection E as <- <-.
      rewrite dot_ropp, dot_eye by auto. specialize (H1 i Hi). lra.
    + intros a b Hi. destruct A as [a'|]; auto. destruct Hi as [Hi|[]]. injection Hi as <- <-.
      rewrite dot_ones by reflexivity. auto.
Qed.

Lemma return_lp_max lp n mean G A m : exact_cp lp -> max_expected_return lp (rrp_return_lp n mean G A) = Ok m ->
  is_max (return_set n G A) (dot n mean) m.
Proof.
  intros Hs H. unfold max_expected_return in H. destruct (lp _) as [x|] eqn:E; [|discriminate]. injection H as <-.
  apply Hs in E as [Hf Ho]. assert (Eo : forall y, cp_obj (rrp_return_lp n mean G A) y = - dot n mean y).
  { intros y. unfold cp_obj; simpl. apply dot_ropp. }
  rewrite Eo. split.
  - exists x. split; [apply return_lp_feasible in Hf; auto|lra].
  - intros w Hw. apply (return_lp_feasible n mean) in Hw. specialize (Ho w Hw). rewrite !Eo in Ho. lra.
Qed.

(** Homogeneous user equalities drop the budget row from that programme: it is unbounded. *)
Lemma return_lp_unbounded lp n mean a x : exact_cp lp ->
  (forall r b, In (r, b) a -> b = 0) -> return_set n None (Some a) x -> 0 < dot n mean x ->
  max_expected_return lp (rrp_return_lp n mean None (Some a)) = Err RuntimeError.
Proof.
  intros Hs Hz Hx Hm. destruct (max_expected_return _ _) as [m|e] eqn:E.
  - exfalso. apply return_lp_max in E as [(w & Hw & Ew) Hmax]; auto.
    assert (H0m : 0 < m) by (specialize (Hmax x Hx); lra).
    assert (K : return_set n None (Some a) (fun i => 2 * w i)).
    { destruct Hw as (W1 & W2 & W3). repeat split.
      - intros i Hi. specialize (W1 i Hi). lra.
      - simpl. tauto.
      - intros r b Hi. rewrite dot_scale_r, (W3 r b Hi), (Hz r b Hi). lra. }
    specialize (Hmax _ K). rewrite dot_scale_r, Ew in Hmax. lra.
  - unfold max_expected_return in E. destruct (lp _); [discriminate|]. injection E as <-. reflexivity.
Qed.

(** * Failure of the Cholesky helper *)
Lemma cholesky_loop_fail chol n M left : forall cur e, 0 < cur -> cholesky_loop chol n M cur left = Err e ->
  e = RuntimeError /\ forall k, (k <= left)%nat -> chol n (plus_jitter M (cur * 10 ^ k)) = None.
Proof.
  induction left as [|left IH]; intros cur e Hc H; simpl in H; destruct (Reqb_spec cur 0); try lra;
    destruct (chol n (jittered M cur)) eqn:E; try discriminate.
  - injection H as <-. split; [reflexivity|]. intros k Hk. replace k with 0%nat by lia. simpl. rewrite Rmult_1_r. exact E.
  - apply IH in H as [H1 H2]; [|lra]. split; [exact H1|]. intros [|k] Hk.
    + simpl. rewrite Rmult_1_r. exact E.
    + specialize (H2 k ltac:(lia)). replace (cur * 10 ^ S k) with (cur * 10 * 10 ^ k) by (simpl; ring). exact H2.
Qed.

Lemma cholesky_fail_l chol n M e : cholesky_pd chol n M = Err e ->
  e = RuntimeError /\ chol n (symmetrise M) = None /\
  forall k, (k < 6)%nat -> chol n (plus_jitter (symmetrise M) (1 / 1000000000000 * 10 ^ k)) = None.
Proof.
  unfold cholesky_pd. intros H.
  assert (E0 : forall l, cholesky_loop chol n (symmetrise M) 0 (S l) = match chol n (if Reqb 0 0 then symmetrise M else jittered (symmetrise M) 0) with
    | Some L => Ok L | None => cholesky_loop chol n (symmetrise M) (if Reqb 0 0 then 1 / 1000000000000 else 0 * 10) l end) by reflexivity.
  rewrite E0 in H. clear E0. destruct (Reqb_spec 0 0); [|lra]. destruct (chol n (symmetrise M)) eqn:E; [discriminate|].
  apply cholesky_loop_fail in H as [H1 H2]; [|lra]. split; [exact H1|]. split; [reflexivity|]. intros k Hk. apply H2. lia.
Qed.
