(** Existence for the risk parity programme. *)
From Verif Require Import RBase QpBase OptModel OptSpec OptProofs OptProofs2 OptProofs3 OptProofs4 OptProofs5 ExistLib ExistSpec OptProofs7.
Open Scope R_scope.

Lemma psd_start_point n mean cov L bud lam G A target x : (1 <= n)%nat -> 0 <= lam -> parity_start n mean cov G A target x ->
  exists psi rho, rrp_point n mean cov L bud lam G A target x psi 0 rho.
Proof.
  intros Hn Hl [P1 P2 P3 P4 P5].
  set (a := lam * sumn n (fun i => Rmax (cov i i) 0 * x i ^ 2)). set (d := dot n (mv n L x) (mv n L x)).
  assert (Ha : 0 <= a).
  { apply Rmult_le_pos; [exact Hl|]. apply sumn_nonneg. intros i _. apply Rmult_le_pos; [apply Rmax_r|apply pow2_ge_0]. }
  assert (Hd : 0 <= d) by apply dot_self_nonneg.
  assert (HN : 1 <= INR n) by (replace 1 with (INR 1) by reflexivity; apply le_INR; lia).
  exists (2 + a + d), (1 + a). constructor; auto.
  - lra.
  - intros i Hi. unfold risk_contribution. specialize (P1 i Hi). specialize (P2 i Hi). nra.
  - fold d. assert (E : (1 + a) ^ 2 + d <= (2 + a + d) ^ 2) by nra. nra.
  - intros _. fold a. nra.
Qed.

Lemma parity_bounded n A : exists B, 0 <= B /\ forall x, (forall i, (i < n)%nat -> 0 <= x i) -> (forall a b, In (a, b) (opt_rows A) -> dot n a x = b) ->
  ((forall a b, In (a, b) (opt_rows A) -> exists i, (i < n)%nat /\ 2 / 100000000 < Rabs (a i - 1)) -> sumn n x = 1) -> box n B x.
Proof.
  destruct (existsb (fun ab => is_ones n (fst ab)) (opt_rows A)) eqn:E.
  - apply existsb_exists in E as ([a b] & Hi & Ho). simpl in Ho. unfold is_ones in Ho. rewrite forallb_forall in Ho.
    exists (Rmax 0 (2 * b)). split; [apply Rmax_l|]. intros x Hx HA _ i Hn. specialize (HA a b Hi).
    eapply Rle_trans; [|apply Rmax_r]. rewrite Rabs_pos_eq by auto.
    assert (K : forall j, (j < n)%nat -> 1 / 2 <= a j).
    { intros j Hj. specialize (Ho j ltac:(apply in_seq; lia)). apply Rleb_true in Ho. apply Rabs_le in Ho || idtac.
      pose proof (Rle_abs (- (a j - 1))) as K. rewrite Rabs_Ropp in K. lra. }
    assert (T : a i * x i <= dot n a x).
    { unfold dot. apply (sumn_term_le n i (fun j => a j * x j)); [|exact Hn]. intros j Hj. specialize (K j Hj). specialize (Hx j Hj). nra. }
    specialize (K i Hn). specialize (Hx i Hn). nra.
  - exists 1. split; [lra|]. intros x Hx _ Hb i Hn. rewrite Rabs_pos_eq by auto.
    rewrite <- (Hb (proj1 (budget_test n A) E)). apply sumn_term_le; auto.
Qed.

Lemma rrp_optimum_exists n mean cov L bud lam G A target : (1 <= n)%nat -> 0 <= lam -> (forall i, (i < n)%nat -> 0 < bud i) ->
  (exists x, parity_start n mean cov G A target x) -> exists y, cp_optimum (rrp_cp n mean cov L bud lam G A target) y.
Proof.
  intros Hn Hl Hb [x0 H0]. assert (Hb' : forall i, (i < n)%nat -> 0 <= bud i) by (intros; apply Rlt_le; auto).
  destruct (psd_start_point n mean cov L bud lam G A target x0 Hn Hl H0) as (psi0 & rho0 & R0).
  destruct (rrp_complete n mean cov L bud lam G A target Hb' _ _ _ _ R0) as (y0 & F0 & O0).
  destruct (parity_bounded n A) as (B & HB & Hbox).
  set (P := rrp_cp n mean cov L bud lam G A target) in *.
  set (Z := B * sumn n (fun i => sumn n (fun j => Rabs (cov i j)))).
  assert (HZ : 0 <= Z) by (apply Rmult_le_pos; [exact HB|]; apply sumn_nonneg; intros; apply sumn_nonneg; intros; apply Rabs_pos).
  set (Gm := B * Z / bud 0%nat + 1).
  assert (HG : 0 <= B * Z / bud 0%nat) by (apply Rmult_le_pos; [nra|apply Rlt_le, Rinv_0_lt_compat, Hb; lia]).
  set (Ps := Rabs psi0 + Gm). set (Q := sqrt (INR n) * Ps).
  assert (Hs : 1 <= sqrt (INR n)).
  { rewrite <- sqrt_1. apply sqrt_le_1_alt. replace 1 with (INR 1) by reflexivity. apply le_INR. lia. }
  assert (HPs : 0 <= Ps) by (unfold Ps, Gm; pose proof (Rabs_pos psi0); lra).
  assert (HQ : Ps <= Q) by (unfold Q; nra). assert (HQ0 : 0 <= Q) by lra. assert (HG0 : 0 <= Gm) by (unfold Gm; lra).
  assert (Hin : forall y, cp_feasible P y -> cp_obj P y <= psi0 -> box (n + (n + 4)) (B + Z + Gm + Q) y).
  { intros y Fy Oy. pose proof (rrp_sound n mean cov L bud lam G A target Hb' y Fy) as [[R1 R2 [R3a [R3b R3c]] R4 R5 R6 R7 R8 R9] Ez].
    unfold P in Oy. rewrite (rrp_obj n mean cov L bud lam G A target y) in Oy.
    assert (Bx : box n B y) by (apply Hbox; auto; apply R4).
    assert (Bz : forall i, (i < n)%nat -> mv n cov y i <= Z).
    { intros i Hi. unfold mv. eapply Rle_trans; [apply Rle_abs|]. eapply Rle_trans; [apply (dot_bound n (cov i) y B HB Bx)|].
      unfold Z. apply Rmult_le_compat_l; [exact HB|]. apply (sumn_term_le n i (fun i => sumn n (fun j => Rabs (cov i j)))); [|exact Hi].
      intros; apply sumn_nonneg; intros; apply Rabs_pos. }
    assert (Bg : tl4 n y 1%nat <= Gm).
    { assert (Hi : (0 < n)%nat) by lia. specialize (R7 0%nat Hi). unfold risk_contribution in R7. specialize (Bz 0%nat Hi). specialize (R1 0%nat Hi). specialize (R2 0%nat Hi).
      specialize (Bx 0%nat Hi). rewrite Rabs_pos_eq in Bx by exact R1. specialize (Hb 0%nat Hi).
      assert (E : bud 0%nat * tl4 n y 1%nat ^ 2 <= B * Z) by nra.
      assert (E2 : tl4 n y 1%nat ^ 2 <= B * Z / bud 0%nat).
      { apply Rmult_le_reg_l with (bud 0%nat); [exact Hb|]. replace (bud 0%nat * (B * Z / bud 0%nat)) with (B * Z) by (field; lra). exact E. }
      unfold Gm. set (g := B * Z / bud 0%nat) in *. clearbody g. nra. }
    assert (Bp : tl4 n y 0%nat <= Ps) by (unfold Ps; pose proof (Rle_abs psi0); lra).
    destruct Fy as (_ & _ & F3). specialize (F3 _ (or_intror (or_introl eq_refl))). change (cp_n P) with (n + (n + 4))%nat in F3. rewrite soc3, !dot_tailrow in F3.
    set (ps := tl4 n y 0%nat) in *. set (ga := tl4 n y 1%nat) in *. set (rh := tl4 n y 2%nat) in *. set (q := tl4 n y 3%nat) in *.
    set (sn := sqrt (INR n)) in *.
    match type of F3 with sqrt ?e <= ?s => assert (He : 0 <= e) by (apply Rplus_le_le_0_compat; apply Rle_0_sqr) end.
    apply sqrt_le_iff in F3; [|exact He]. destruct F3 as [F3 F4].
    assert (F5 : q * q <= (sn * ps) * (sn * ps)).
    { pose proof (Rle_0_sqr (sn * rh)) as K. unfold Rsqr in K. nra. }
    assert (F6 : (sn * rh) * (sn * rh) <= (sn * ps) * (sn * ps)).
    { pose proof (Rle_0_sqr q) as K. unfold Rsqr in K. nra. }
    assert (Sp : 0 <= sn * ps) by nra.
    assert (Spq : sn * ps <= Q) by (unfold Q; apply Rmult_le_compat_l; lra).
    assert (Bq : Rabs q <= Q).
    { apply Rabs_le. split; nra. }
    assert (Bh : rh <= Q). { assert (sn * rh <= sn * ps) by nra. nra. }
    intros k Hk. destruct (Nat.lt_ge_cases k n) as [K1|K1]; [specialize (Bx k K1); lra|].
    destruct (Nat.lt_ge_cases (k - n) n) as [K2|K2].
    { replace (y k) with (shift n y (k - n)%nat) by (unfold shift; f_equal; lia). rewrite Ez by exact K2. rewrite Rabs_pos_eq by auto. specialize (Bz _ K2). lra. }
    assert (K3 : y k = tl4 n y (k - n - n)%nat) by (unfold tl4, shift; f_equal; lia). rewrite K3.
    assert (K4 : (k - n - n < 4)%nat) by lia. set (m := (k - n - n)%nat) in *. clearbody m.
    destruct m as [|[|[|[|m]]]]; [| | | |lia].
    - change (Rabs ps <= B + Z + Gm + Q). rewrite Rabs_pos_eq by exact R3a. lra.
    - change (Rabs ga <= B + Z + Gm + Q). rewrite Rabs_pos_eq by exact R3b. lra.
    - change (Rabs rh <= B + Z + Gm + Q). rewrite Rabs_pos_eq by exact R3c. lra.
    - change (Rabs q <= B + Z + Gm + Q). lra. }
  apply (cp_attains P (B + Z + Gm + Q)); [eauto|]. intros y Fy.
  destruct (Rle_or_lt (cp_obj P y) psi0) as [H|H].
  - exists y. split; [exact Fy|]. split; [lra|apply Hin; auto].
  - exists y0. split; [exact F0|]. split; [lra|]. apply Hin; [exact F0|]. lra.
Qed.

Lemma quad_symmetrise' n M x : quad n (symmetrise M) x = quad n M x.
Proof.
  unfold symmetrise. rewrite (quad_scale n (1 / 2) (fun i j => M i j + M j i) x), (quad_plus n M (fun i j => M j i) x).
  assert (E : quad n (fun i j => M j i) x = quad n M x); [|rewrite E; lra].
  unfold quad. rewrite sumn_swap. apply sumn_ext. intros i Hi. apply sumn_ext. intros; ring.
Qed.
Lemma start_symm n M x i : (forall i j, (i < n)%nat -> (j < n)%nat -> M i j = M j i) -> (i < n)%nat -> mv n (symmetrise M) x i = mv n M x i.
Proof. intros H Hi. unfold mv, dot, symmetrise. apply sumn_ext. intros j Hj. rewrite (H j i Hj Hi). lra. Qed.

(** The call succeeds whenever its (clipped) target can be met by some admissible start. *)
Lemma rrp_solve_total conelp lp chol n mean cov G A rb lam target mint bud m : (1 <= n)%nat -> complete_cp conelp -> complete_chol chol ->
  psd n cov -> 0 <= lam -> risk_budgets n rb = Ok bud ->
  (forall t, target = Some t -> max_expected_return lp (rrp_return_lp n mean G A) = Ok m) ->
  (exists x, parity_start n mean (symmetrise cov) G A (match target with Some t => Some (clip_target m t mint) | None => None end) x) ->
  exists r, rrp_solve conelp lp chol n mean cov G A rb lam target mint = Ok r.
Proof.
  intros Hn Hc Hch Hp Hl Hb Hm Hs. unfold rrp_solve. assert (Hp' : psd n (symmetrise cov)) by (intros x; rewrite quad_symmetrise'; apply Hp).
  destruct (cholesky_pd_total chol n _ Hch Hp') as [L ->]. cbn [bind]. rewrite Hb. cbn [bind].
  destruct (Rltb_spec lam 0); [lra|].
  assert (Hbp : forall i, (i < n)%nat -> 0 < bud i) by (intros i Hi; apply (risk_budgets_nonneg n rb bud i Hb Hi)).
  destruct (rrp_optimum_exists n mean (symmetrise cov) L bud lam G A _ Hn Hl Hbp Hs) as [y Hy].
  destruct target as [t|].
  - rewrite (Hm t eq_refl). cbn [bind fst]. destruct (conelp _) as [x|] eqn:E; [eauto|]. exfalso. revert E. apply (Hc _ y). exact Hy.
  - cbn [bind fst]. destruct (conelp _) as [x|] eqn:E; [eauto|]. exfalso. revert E. apply (Hc _ y). exact Hy.
Qed.

Lemma return_lp_total lp n mean G A : complete_cp lp -> bounded n (return_set n G A) -> (exists x, return_set n G A x) ->
  exists m, max_expected_return lp (rrp_return_lp n mean G A) = Ok m.
Proof.
  intros Hc (B & HB) (x & Hx). unfold max_expected_return.
  assert (Ho : exists y, cp_optimum (rrp_return_lp n mean G A) y).
  { apply (cp_attains _ B); [exists x; apply return_lp_feasible; exact Hx|]. intros z Hz. exists z. split; [exact Hz|]. split; [lra|].
    intros i Hi. apply HB; [apply (proj1 (return_lp_feasible n mean G A z)); exact Hz|exact Hi]. }
  destruct Ho as [y Hy]. destruct (lp _) eqn:E; [eauto|]. exfalso. revert E. apply (Hc _ y). exact Hy.
Qed.

(** Least-variance portfolios of the simplex have no negative marginal risk. *)
Lemma quad_seg n M x y s : symmetric n M -> quad n M (fun i => x i + s * y i) = quad n M x + 2 * s * dot n y (mv n M x) + s * s * quad n M y.
Proof.
  intros Hs. unfold quad, dot, mv, dot.
  assert (E : sumn n (fun i => sumn n (fun j => M i j * (x i + s * y i) * (x j + s * y j))) =
    sumn n (fun i => sumn n (fun j => M i j * x i * x j) + s * (y i * sumn n (fun j => M i j * x j)) + s * sumn n (fun j => M i j * x i * y j) + s * s * sumn n (fun j => M i j * y i * y j))).
  { apply sumn_ext. intros i Hi. rewrite <- !sumn_scale, <- !sumn_plus. apply sumn_ext. intros j Hj. ring. }
  rewrite E, !sumn_plus, !sumn_scale.
  assert (E2 : sumn n (fun i => sumn n (fun j => M i j * x i * y j)) = sumn n (fun i => y i * sumn n (fun j => M i j * x j))).
  { rewrite sumn_swap. apply sumn_ext. intros i Hi. rewrite <- sumn_scale. apply sumn_ext. intros j Hj. rewrite (Hs j i Hj Hi). ring. }
  rewrite E2. ring.
Qed.

Lemma small_slope a b : 0 <= b -> (forall s, 0 < s <= 1 -> 0 <= s * a + s * s * b) -> 0 <= a.
Proof.
  intros Hb H. destruct (Rle_or_lt 0 a) as [|Ha]; [assumption|exfalso].
  set (s := Rmin 1 (- a / (2 * (b + 1)))).
  assert (Hs : 0 < s).
  { unfold s. apply Rmin_glb_lt; [lra|]. apply Rdiv_lt_0_compat; lra. }
  assert (Hs1 : s <= 1) by apply Rmin_l. assert (Hs2 : s <= - a / (2 * (b + 1))) by apply Rmin_r.
  assert (K : s * (2 * (b + 1)) <= - a).
  { apply Rmult_le_compat_r with (r := 2 * (b + 1)) in Hs2; [|lra]. replace (- a / (2 * (b + 1)) * (2 * (b + 1))) with (- a) in Hs2 by (field; lra). exact Hs2. }
  specialize (H s (conj Hs Hs1)). clearbody s. assert (0 <= s * (a + s * b)) by (replace (s * (a + s * b)) with (s * a + s * s * b) by ring; exact H).
  assert (a + s * b < 0) by nra. nra.
Qed.

Lemma simplex_start n mean cov : (1 <= n)%nat -> symmetric n cov -> psd n cov -> exists x, parity_start n mean cov None None None x.
Proof.
  intros Hn Hs Hp. set (F := fun x : vec => (forall i, (i < n)%nat -> 0 <= x i) /\ sumn n x = 1).
  destruct (attains n 1 F (quad n cov)) as (x & [Hx1 Hx2] & Hmin).
  - intros u x Hu Hc. split.
    + intros i Hi. apply (cv_ge (fun k => u k i)); [apply Hc; exact Hi|]. intros k. apply (Hu k). exact Hi.
    + apply (cv_eq_const (fun k => sumn n (u k))); [apply (cv_sumn n (fun k => u k) x); exact Hc|]. intros k. apply (Hu k).
  - intros u x Hc. apply cv_quad. exact Hc.
  - exists (fun i => delta 0%nat i). split; [intros i Hi; unfold delta; destruct (0 =? i)%nat; lra|].
    rewrite (sumn_ext n _ (fun i => delta 0%nat i * 1)) by (intros; ring). rewrite (sumn_delta_r n 0%nat (fun _ => 1)) by lia. reflexivity.
  - intros x [H1 H2]. exists x. split; [split; assumption|]. split; [lra|]. intros i Hi. rewrite Rabs_pos_eq by auto. rewrite <- H2. apply sumn_term_le; auto.
  - assert (K : forall i, (i < n)%nat -> quad n cov x <= mv n cov x i).
    { intros i Hi. set (y := fun j => delta i j - x j).
      assert (Ey : dot n y (mv n cov x) = mv n cov x i - quad n cov x).
      { unfold y, dot. rewrite (sumn_ext n _ (fun j => delta i j * mv n cov x j + -1 * (x j * mv n cov x j))) by (intros; ring).
        rewrite sumn_plus, sumn_scale, (sumn_delta_r n i (mv n cov x)) by exact Hi.
        assert (Eq : sumn n (fun j => x j * mv n cov x j) = quad n cov x); [|rewrite Eq; ring].
        unfold quad, mv, dot. apply sumn_ext. intros a Ha. rewrite <- sumn_scale. apply sumn_ext. intros; ring. }
      enough (0 <= 2 * (mv n cov x i - quad n cov x)) by lra.
      apply (small_slope _ (quad n cov y)); [apply Hp|]. intros s Hs'. rewrite <- Ey.
      assert (Q : quad n cov x <= quad n cov (fun j => x j + s * y j)).
      { apply Hmin. split.
        - intros j Hj. unfold y, delta. specialize (Hx1 j Hj). destruct (i =? j)%nat; nra.
        - unfold y. rewrite (sumn_ext n _ (fun j => (1 - s) * x j + s * (delta i j * 1))) by (intros; ring).
          rewrite sumn_plus, !sumn_scale, (sumn_delta_r n i (fun _ => 1)), Hx2 by exact Hi. ring. }
      rewrite (quad_seg n cov x y s Hs) in Q. nra. }
    exists x. constructor; auto; [|split; intros ? ? []|exact I].
    intros i Hi. specialize (K i Hi). specialize (Hp x). lra.
Qed.
