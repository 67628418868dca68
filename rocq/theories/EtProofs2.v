(** Proofs about entropy pooling with tolerances: near-optimality, and whole calls. *)
From Verif Require Import RBase QpBase OptModel OptProofs OptProofs3 OptProofs7 MomSpec BlModel EpModel EpSpec EpProofs EpProofs2 EpProofs4 EtSpec EtProofs.
Open Scope R_scope.
Open Scope list_scope.

Section Best.
  Variables (pn : list R) (A : rows) (G : option rows) (m : string) (lam : vec).
  Variables (eps B : R).
  Notation d := (ep_dual pn A G m).
  Notation T := (List.length pn).
  Hypothesis E0 : 0 <= eps < 1000.
  Hypothesis N : near_kkt eps B d lam.
  Hypothesis HO : has_ones T A.
  Hypothesis PP : forall s, (s < T)%nat -> 0 < of_list pn s.
  Let x := ep_x d lam.
  Let e := eps / 1000.
  Let u (s : nat) := sumn (du_K d) (fun k => row_of d k s * lam k).
  Let g k := rhs_of d k - expectation T x (row_of d k).
  Let mG := INR (List.length (opt_rows G)).
  Let X := sumn T x.

  Lemma sum_bounds : 1 - e <= X <= 1 + e.
  Proof. pose proof (gr_sum pn A G m lam eps B N HO) as S1. fold x e X in S1. unfold Rabs in S1. destruct (Rcase_abs _) in S1; lra. Qed.

  Lemma near_price q' : obeys T A (opt_rows G) q' ->
    sumn T (fun s => q' s * u s) <= sumn T (fun s => x s * u s) + e * (B + mG).
  Proof.
    intros [P [HE HL]]. assert (e0 : 0 <= e) by (unfold e; lra). unfold u. rewrite !price_sum.
    assert (Bd : sumn (du_K d) (fun k => lam k * expectation T q' (row_of d k)) <=
      sumn (du_K d) (fun k => lam k * expectation T x (row_of d k) + (e * Rabs (lam k) + (if k <? List.length A then 0 else e)))).
    { apply sumn_le. intros k Hk. destruct (Nat.ltb_spec k (List.length A)) as [L|L].
      - rewrite (HE _ _ (row_in_eq pn A G m k L)). assert (G1 : Rabs (g k) <= e) by exact (gr_eq pn A G m lam eps B N k L).
        replace (rhs_of d k) with (expectation T x (row_of d k) + g k) by (unfold g; ring).
        assert (lam k * g k <= e * Rabs (lam k)). { eapply Rle_trans; [apply Rle_abs|]. rewrite Rabs_mult, Rmult_comm. apply Rmult_le_compat_r; [apply Rabs_pos|auto]. }
        lra.
      - pose proof (HL _ _ (row_in_le pn A G m k ltac:(lia))) as H. assert (Q1 : 0 <= lam k /\ - e <= g k /\ lam k * g k <= e) by (apply (gr_le pn A G m lam eps B N k); lia).
        destruct Q1 as [H1 [H2 H3]]. replace (expectation T x (row_of d k)) with (rhs_of d k - g k) by (unfold g; ring).
        assert (0 <= e * Rabs (lam k)) by (apply Rmult_le_pos; [auto|apply Rabs_pos]). nra. }
    rewrite !sumn_plus, sumn_scale in Bd.
    assert (Z : sumn (du_K d) (fun k => if k <? List.length A then 0 else e) = e * mG).
    { rewrite split_K. rewrite (sumn_ext (List.length A) _ (fun _ => 0)), sumn_zero, Rplus_0_l.
      - rewrite (sumn_ext _ _ (fun _ => e)); [rewrite sumn_const; unfold mG; ring|]. intros k _. destruct (Nat.ltb_spec (List.length A + k) (List.length A)); [lia|reflexivity].
      - intros k L. destruct (Nat.ltb_spec k (List.length A)); [reflexivity|lia]. }
    rewrite Z in Bd. destruct N as [_ [_ S1]]. nra.
  Qed.

  Lemma near_ln s : (s < T)%nat -> exists c, (0 < c -> x s = exp (-700)) /\ 0 <= c /\ ln (x s / of_list pn s) = -1 - u s + c.
  Proof.
    intros Hs. set (ex := ep_exponent d lam s). exists (clip ex (-700) 700 - ex).
    assert (C : clip ex (-700) 700 < 700).
    { assert (L : x s <= X).
      { unfold X. clear - Hs. assert (Gn : forall n, (s < n)%nat -> x s <= sumn n x); [|apply Gn; auto].
        induction n; intros L; [lia|]. simpl. assert (0 < x n) by apply exp_pos. destruct (Nat.eq_dec s n) as [-> |Ne].
        - assert (0 <= sumn n x) by (apply sumn_nonneg; intros; apply Rlt_le, exp_pos). lra.
        - specialize (IHn ltac:(lia)). lra. }
      pose proof sum_bounds. assert (e < 1) by (unfold e; lra). unfold x, ep_x in L. fold ex in L. apply exp_lt_inv.
      pose proof (exp_ineq1_le 700). lra. }
    assert (EX : ln (x s / of_list pn s) = clip ex (-700) 700 - ln (of_list pn s)).
    { unfold Rdiv. rewrite ln_mult; [|apply exp_pos|apply Rinv_0_lt_compat, PP; auto]. rewrite ln_Rinv by auto. unfold x, ep_x. rewrite ln_exp. fold ex. ring. }
    split; [|split].
    - intros P. unfold x, ep_x. fold ex. f_equal. unfold clip, Rmin, Rmax in *. repeat destruct (Rle_dec _ _); lra.
    - unfold clip, Rmin, Rmax in *. repeat destruct (Rle_dec _ _); lra.
    - rewrite EX. assert (EE : ex = ln (of_list pn s) - 1 - u s) by reflexivity. lra.
  Qed.

  Lemma near_raw q' : obeys T A (opt_rows G) q' -> (forall s, (s < T)%nat -> exp (-700) <= q' s) ->
    sumn T (fun s => x s * ln (x s / of_list pn s)) <= kl T q' (of_list pn) + e * (B + mG).
  Proof.
    intros Hq' Fl. destruct Hq' as [[P1 P2] HOq]. pose proof (conj (conj P1 P2) HOq : obeys T A (opt_rows G) q') as Hq'.
    assert (X0 : forall s, 0 < x s) by (intros; apply exp_pos).
    assert (D : kl T q' (of_list pn) = kl T q' x + sumn T (fun s => q' s * ln (x s / of_list pn s))).
    { unfold kl. rewrite <- sumn_plus. apply sumn_ext. intros s Hs. destruct (Req_dec (q' s) 0) as [-> |Nz]; [lra|].
      pose proof (P1 s Hs). pose proof (X0 s). pose proof (PP s Hs).
      rewrite <- Rmult_plus_distr_l. f_equal. rewrite <- ln_mult; [f_equal; field; lra|apply Rdiv_lt_0_compat; lra|apply Rdiv_lt_0_compat; lra]. }
    assert (Gb : 1 - X <= kl T q' x).
    { unfold kl. rewrite <- P2. unfold X. rewrite <- sumn_minus. apply sumn_le. intros s Hs. apply kl_term; auto. }
    assert (Ex : sumn T (fun s => (q' s - x s) * (-1 - u s)) <= sumn T (fun s => (q' s - x s) * ln (x s / of_list pn s))).
    { apply sumn_le. intros s Hs. destruct (near_ln s Hs) as [c [E1 [c0 ->]]].
      destruct (Req_dec c 0) as [-> |]; [lra|]. rewrite E1 by lra. pose proof (Fl s Hs). nra. }
    assert (E2 : sumn T (fun s => (q' s - x s) * (-1 - u s)) = (X - 1) + (sumn T (fun s => x s * u s) - sumn T (fun s => q' s * u s))).
    { rewrite (sumn_ext T _ (fun s => (x s - q' s) + (x s * u s - q' s * u s))) by (intros; ring). rewrite sumn_plus, !sumn_minus, P2. unfold X. ring. }
    pose proof (near_price q' Hq') as Pr.
    assert (E3 : sumn T (fun s => (q' s - x s) * ln (x s / of_list pn s)) = sumn T (fun s => q' s * ln (x s / of_list pn s)) - sumn T (fun s => x s * ln (x s / of_list pn s))).
    { rewrite <- sumn_minus. apply sumn_ext. intros; ring. }
    lra.
  Qed.

  (** Relative to the prior scaled by [c], close to one. *)
  Lemma near_kl c q' : 0 < c -> Rabs (ln c) <= 1 -> 0 <= kl T q' (fun s => of_list pn s / c) -> obeys T A (opt_rows G) q' -> (forall s, (s < T)%nat -> exp (-700) <= q' s) ->
    kl T (fun s => x s / X) (fun s => of_list pn s / c) <= (kl T q' (fun s => of_list pn s / c) + e * (B + mG + 2)) / (1 - e).
  Proof.
    intros c0 Lc K0 Hq' Fl. pose proof (near_raw q' Hq' Fl) as R. pose proof sum_bounds as XB. assert (e1 : 0 <= e < 1) by (unfold e; lra). assert (X0 : 0 < X) by lra.
    assert (xp : forall s, 0 < x s) by (intros; apply exp_pos).
    assert (SX : sumn T (fun s => x s / X) = 1) by (rewrite sumn_div; fold X; field; lra).
    rewrite kl_scale; auto; [|intros s _; apply Rlt_le, Rdiv_lt_0_compat; auto].
    rewrite kl_scale in K0 by (auto; apply Hq'). rewrite kl_scale by (auto; apply Hq').
    assert (KX : kl T (fun s => x s / X) (of_list pn) = sumn T (fun s => x s * ln (x s / of_list pn s)) / X - ln X).
    { unfold kl. rewrite (sumn_ext T _ (fun s => x s * ln (x s / of_list pn s) / X - x s / X * ln X)).
      - rewrite sumn_minus, sumn_div, sumn_scale_r, SX. ring.
      - intros s Hs. pose proof (PP s Hs). replace (x s / X / of_list pn s) with (x s / of_list pn s * / X) by (field; lra).
        rewrite ln_mult; [|apply Rdiv_lt_0_compat; auto|apply Rinv_0_lt_compat; auto]. rewrite ln_Rinv by auto. field. lra. }
    rewrite KX. set (S := sumn T (fun s => x s * ln (x s / of_list pn s))) in *. set (K := kl T q' (of_list pn)) in *.
    assert (LX : - ln X <= e / X).
    { rewrite <- ln_Rinv by auto. eapply Rle_trans; [apply ln_le_sub, Rinv_0_lt_compat; auto|]. apply Rmult_le_reg_r with X; auto.
      replace ((/ X - 1) * X) with (1 - X) by (field; lra). replace (e / X * X) with e by (field; lra). lra. }
    apply Rle_trans with ((K + ln c + e * (B + mG + 2)) / X).
    - apply Rmult_le_reg_r with X; auto. replace ((K + ln c + e * (B + mG + 2)) / X * X) with (K + ln c + e * (B + mG + 2)) by (field; lra).
      replace ((S / X - ln X + ln c) * X) with (S + (- ln X) * X + ln c * X) by (field; lra).
      assert ((- ln X) * X <= e) by (apply (Rmult_le_compat_r X) in LX; [|lra]; replace (e / X * X) with e in LX by (field; lra); auto).
      assert (ln c * X <= ln c + e). { assert (Hc : - 1 <= ln c <= 1) by (unfold Rabs in Lc; destruct (Rcase_abs _) in Lc; lra). nra. }
      lra.
    - unfold Rdiv. assert (B0 : 0 <= B). { destruct N as [_ [_ S1]]. eapply Rle_trans; [|exact S1]. apply sumn_nonneg. intros; apply Rabs_pos. }
      assert (0 <= mG) by apply pos_INR.
      apply Rmult_le_compat_l; [|apply Rinv_le_contravar; lra]. assert (0 <= e * (B + mG + 2)) by (apply Rmult_le_pos; lra). lra.
  Qed.
End Best.

Lemma near_one c : risclose c 1 = true -> 0 < c /\ Rabs (ln c) <= 1.
Proof.
  unfold risclose. intros H. apply Rleb_true in H. rewrite Rabs_R1 in H. assert (L : 99 / 100 <= c <= 101 / 100) by (unfold Rabs in H; destruct (Rcase_abs _) in H; lra).
  split; [lra|]. apply Rabs_le. split.
  - pose proof (ln_le_sub (/ c) ltac:(apply Rinv_0_lt_compat; lra)) as K. rewrite ln_Rinv in K by lra. assert (/ c <= 2). { rewrite <- (Rinv_inv 2). apply Rinv_le_contravar; lra. } lra.
  - pose proof (ln_le_sub c ltac:(lra)). lra.
Qed.
Lemma prior_close p pn : normalize_positive p = Ok pn -> exists c, 0 < c /\ Rabs (ln c) <= 1 /\ forall s, of_list p s / rsum p = of_list pn s / c.
Proof.
  intros H. destruct (normalize_positive_inv _ _ H) as [Ne [Pp [L [c [c0 [E O]]]]]]. unfold normalize_positive in H. destruct p as [|a t]; [congruence|]. set (p := a :: t) in *.
  apply guard_ok in H. destruct H as [_ H]. assert (S0 : 0 < rsum p) by (apply rsum_pos; [discriminate|auto]). destruct (risclose (rsum p) 1) eqn:C.
  - exists (rsum p). destruct (near_one _ C) as [H1 H2]. split; auto. split; auto. injection H as <-. reflexivity.
  - exists 1. split; [lra|]. split; [rewrite ln_1, Rabs_R0; lra|]. intros s. apply (f_equal (fun r => match r with Ok y => y | Err _ => [] end)) in H; cbv beta iota in H; subst pn. unfold of_list. destruct (lt_dec s (List.length p)) as [K|K].
    + rewrite (nth_map_lt (fun x => x / rsum p) p s 0 0) by auto. field. lra.
    + rewrite !nth_overflow; [field; lra|rewrite map_length; lia|lia].
Qed.
Lemma kl_nonneg T q p : is_prob T q -> (forall s, (s < T)%nat -> 0 < p s) -> sumn T p = 1 -> 0 <= kl T q p.
Proof. intros [H1 H2] Hp S. assert (sumn T (fun s => q s - p s) <= kl T q p) by (apply sumn_le; intros s Hs; apply kl_term; auto). rewrite sumn_minus, H2, S in H. lra. Qed.
Lemma sumn_of_list p : sumn (List.length p) (of_list p) = rsum p.
Proof. unfold of_list. rewrite <- rsum_sumn. reflexivity. Qed.

Lemma ep_near_optimal_l eps B minimize p A G method q q' : sound_near eps B minimize -> 0 <= eps < 1000 ->
  entropy_pooling minimize p A G method = Ok q -> has_ones (List.length p) A -> obeys (List.length p) A (opt_rows G) q' -> (forall s, (s < List.length p)%nat -> exp (-700) <= q' s) ->
  kl (List.length p) q (fun s => of_list p s / rsum p) <=
    (kl (List.length p) q' (fun s => of_list p s / rsum p) + eps / 1000 * (B + INR (List.length (opt_rows G)) + 2)) / (1 - eps / 1000).
Proof.
  intros So He H Ho Hq Fl. destruct (ep_inv _ _ _ _ _ _ H) as [m [pn [lam [E [M Q]]]]]. destruct (normalize_positive_inv _ _ E) as [Ne [Pp [L [c [c0 [Ec _]]]]]].
  destruct (prior_close _ _ E) as [c' [c1 [Lc Ec']]]. specialize (So _ _ M).
  assert (PP : forall s, (s < List.length pn)%nat -> 0 < of_list pn s). { intros s Hs. rewrite Ec. apply Rdiv_lt_0_compat; auto. apply of_list_pos; auto. lia. }
  assert (S0 : 0 < rsum p) by (apply rsum_pos; auto).
  assert (K0 : 0 <= kl (List.length p) q' (fun s => of_list p s / rsum p)).
  { apply kl_nonneg; [apply Hq| |]. - intros s Hs. apply Rdiv_lt_0_compat; auto. apply of_list_pos; auto. - rewrite sumn_div, sumn_of_list. field. lra. }
  rewrite (kl_ext _ q' q' _ (fun s => of_list pn s / c')) in * by auto. rewrite (kl_ext _ q (fun s => ep_x (ep_dual pn A G m) lam s / sumn (List.length p) (ep_x (ep_dual pn A G m) lam)) _ (fun s => of_list pn s / c')) by auto.
  rewrite <- L in *. apply near_kl; auto.
Qed.

Lemma ep_pair_l eps B B' minimize minimize' p A G method method' q q' : sound_near eps B minimize -> sound_near eps B' minimize' -> 0 <= eps < 1000 ->
  entropy_pooling minimize p A G method = Ok q -> entropy_pooling minimize' p A G method' = Ok q' -> has_ones (List.length p) A ->
  l1_dist (List.length p) q q' <= 6 * sqrt (eps / 1000 * (B + B' + INR (List.length (opt_rows G)))) / (1 - eps / 1000).
Proof.
  intros So So' He H H' Ho. destruct (ep_inv _ _ _ _ _ _ H) as [m [pn [lam [E [M Q]]]]]. destruct (ep_inv _ _ _ _ _ _ H') as [m' [pn' [lam' [E' [M' Q']]]]].
  rewrite E in E'. injection E' as <-. destruct (normalize_positive_inv _ _ E) as [_ [_ [L _]]]. rewrite <- L in *.
  unfold l1_dist. rewrite (sumn_ext _ _ (fun s => Rabs (ep_x (ep_dual pn A G m) lam s / sumn (List.length pn) (ep_x (ep_dual pn A G m) lam) -
    ep_x (ep_dual pn A G m) lam' s / sumn (List.length pn) (ep_x (ep_dual pn A G m) lam')))) by (intros s _; rewrite Q, Q'; reflexivity).
  specialize (So _ _ M). specialize (So' _ _ M'). apply (pair_normal pn A G m lam lam' eps B B'); auto.
Qed.

Lemma l1_ext T q q' w w' : (forall s, (s < T)%nat -> q s = w s) -> (forall s, (s < T)%nat -> q' s = w' s) -> l1_dist T q q' = l1_dist T w w'.
Proof. intros H1 H2. apply sumn_ext. intros s Hs. rewrite H1, H2 by auto. reflexivity. Qed.

Lemma ep_converges_l p A G qs : closest (List.length p) (of_list p) A (opt_rows G) qs -> has_ones (List.length p) A -> (forall s, (s < List.length p)%nat -> exp (-700) < qs s) ->
  exists C, 0 <= C /\ forall eps B minimize method q, 0 <= eps <= 500 -> sound_near eps B minimize -> entropy_pooling minimize p A G method = Ok q ->
    l1_dist (List.length p) q qs <= C * sqrt (eps * (1 + B)).
Proof.
  intros CL HO QP. destruct (normalize_positive p) as [pn|er] eqn:E.
  2: { exists 0. split; [lra|]. intros eps B minimize method q He So H. destruct (ep_inv _ _ _ _ _ _ H) as [m [pn [lam [E2 _]]]]. congruence. }
  destruct (normalize_positive_inv _ _ E) as [Ne [Pp [L [c [c0 [Ec _]]]]]].
  assert (PP : forall s, (s < List.length pn)%nat -> 0 < of_list pn s). { intros s Hs. rewrite Ec. apply Rdiv_lt_0_compat; auto. apply of_list_pos; auto. lia. }
  assert (CL2 : closest (List.length pn) (of_list pn) A (opt_rows G) qs).
  { rewrite L. apply (closest_ext _ (fun s => of_list p s / c) _ A (opt_rows G) qs); auto. apply closest_unscale; auto. intros s Hs. apply of_list_pos; auto. }
  rewrite <- L in HO, QP. destruct (kkt_exists pn A G ""%string qs PP CL2 HO QP) as [ls [ST Xs]].
  set (K := du_K (ep_dual pn A G ""%string)) in *. set (Bs := sumn K (fun k => Rabs (ls k))). set (mG := INR (List.length (opt_rows G))).
  assert (Bs0 : 0 <= Bs) by (apply sumn_nonneg; intros; apply Rabs_pos). assert (mG0 : 0 <= mG) by apply pos_INR.
  exists (12 * sqrt ((1 + Bs + mG) / 1000)). split. { apply Rmult_le_pos; [lra|apply sqrt_pos]. }
  intros eps B minimize method q He So H. destruct (ep_inv _ _ _ _ _ _ H) as [m [pn' [lam [E' [M Q]]]]]. rewrite E in E'. injection E' as <-. specialize (So _ _ M).
  assert (B0 : 0 <= B). { destruct So as [_ [_ S1]]. eapply Rle_trans; [|exact S1]. apply sumn_nonneg. intros; apply Rabs_pos. }
  assert (NS : near_kkt eps Bs (ep_dual pn A G m) ls).
  { destruct ST as [S1 S2]. split; [split|split].
    - intros k Hk. pose proof (S1 k Hk) as Z. change (dual_gradient (ep_dual pn A G m) ls k) with (dual_gradient (ep_dual pn A G ""%string) ls k). rewrite Z, Rabs_R0. lra.
    - intros k Hk. destruct (S2 k Hk) as [Z1 [Z2 _]]. split; auto. change (dual_gradient (ep_dual pn A G m) ls k) with (dual_gradient (ep_dual pn A G ""%string) ls k). lra.
    - intros k Hk. destruct (S2 k Hk) as [_ [_ Z]]. change (dual_gradient (ep_dual pn A G m) ls k) with (dual_gradient (ep_dual pn A G ""%string) ls k). lra.
    - apply Rle_refl. }
  pose proof (pair_normal pn A G m lam ls eps B Bs ltac:(lra) So NS HO) as P. fold mG in P.
  rewrite <- L in Q |- *.
  rewrite (l1_ext _ q qs (fun s => ep_x (ep_dual pn A G m) lam s / sumn (List.length pn) (ep_x (ep_dual pn A G m) lam)) (fun s => ep_x (ep_dual pn A G m) ls s / sumn (List.length pn) (ep_x (ep_dual pn A G m) ls))); auto.
  2: { intros s Hs. change (ep_x (ep_dual pn A G m) ls) with (ep_x (ep_dual pn A G ""%string) ls). rewrite (st_sum _ _ _ _ _ ST HO), Xs by auto. field. }
  eapply Rle_trans; [exact P|].
  assert (S1 : sqrt (eps / 1000 * (B + Bs + mG)) <= sqrt ((1 + Bs + mG) / 1000) * sqrt (eps * (1 + B))).
  { rewrite <- sqrt_mult by (try apply Rmult_le_pos; lra). apply sqrt_le_1_alt.
    replace (eps / 1000 * (B + Bs + mG)) with ((eps / 1000) * (B + Bs + mG)) by ring. replace ((1 + Bs + mG) / 1000 * (eps * (1 + B))) with ((eps / 1000) * ((1 + Bs + mG) * (1 + B))) by (field).
    apply Rmult_le_compat_l; [lra|]. nra. }
  pose proof (sqrt_pos (eps / 1000 * (B + Bs + mG))) as S0. set (z := sqrt (eps / 1000 * (B + Bs + mG))) in *.
  apply Rle_trans with (12 * z); [|rewrite Rmult_assoc; lra].
  apply Rmult_le_reg_r with (1 - eps / 1000); [lra|]. replace (6 * z / (1 - eps / 1000) * (1 - eps / 1000)) with (6 * z) by (field; lra).
  assert (1 / 2 <= 1 - eps / 1000) by lra. nra.
Qed.
