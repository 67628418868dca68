(** Optimisers driven by inexact solvers (C149-C154). *)
From Coq Require Import List ZArith Lia Lra Psatz Classical.
Import ListNotations.
From Verif Require Import Err RBase QpBase RiskSpec OptModel OptSpec OptProofs OptProofs2 OptProofs3 OptProofs4 OptProofs5 OptProofs6 ExistSpec OptProofs7 ExistProperties AxSpec AxProofs AxProofs2 AxProofs3.
Open Scope R_scope.
Open Scope list_scope.

(** * C149: mean-variance *)
Theorem mv_inexact :
  forall solve n mean cov G A w0 lam target d e w, approx_qp d e solve ->
    (forall l, lam = Some l -> w0 <> None -> length l = n) ->
    mv_portfolio solve n mean cov G A w0 lam target = Ok w ->
    near_constrained d n G A w /\ near_meets d n mean target w /\
    exists r, 0 <= r /\
      within e (fun w => constrained n G A w /\ meets n mean target w)
        (fun w => mv_cost n cov w0 lam w + r / 2 * dot n w w) w /\
      (forall P q, mv_terms n cov w0 lam = Ok (P, q) -> solve (mv_qp n mean P q G A target) <> None -> r = 0).
Proof. intros solve n mean cov G A w0 lam target d e w. apply mv_near. Qed.
Print Assumptions mv_inexact.

(** With Lagrange multipliers at the true optimum [ws] and a covariance of least eigenvalue at least [m > 0], the weights
    are close to [ws] and the cost is close to the optimal cost on both sides. *)
Theorem mv_inexact_close :
  forall solve n mean cov G A w0 lam target d e w P q zs ys zt ws m, approx_qp d e solve -> 0 <= d ->
    (forall l, lam = Some l -> w0 <> None -> length l = n) -> (forall l x, lam = Some l -> In x l -> 0 <= x) ->
    0 < m -> (forall x, m * dot n x x <= quad n cov x) ->
    mv_portfolio solve n mean cov G A w0 lam target = Ok w ->
    mv_terms n cov w0 lam = Ok (P, q) -> solve (mv_qp n mean P q G A target) <> None ->
    saddle n G A mean target (mv_cost n cov w0 lam) zs ys zt ws ->
    minimises (fun w => constrained n G A w /\ meets n mean target w) (mv_cost n cov w0 lam) ws /\
    mv_cost n cov w0 lam ws - d * (mass zs + mass ys + zt) <= mv_cost n cov w0 lam w <= mv_cost n cov w0 lam ws + e /\
    sumn n (fun i => (w i - ws i) ^ 2) <= (e + d * (mass zs + mass ys + zt)) / m.
Proof.
  intros solve n mean cov G A w0 lam target d e w P q zs ys zt ws m Hs D Hl Hl0 Hm Hq H HT HN SD.
  destruct (mv_close solve n mean cov G A w0 lam target d e w P q zs ys zt ws m Hs D Hl Hl0 Hq H HT HN SD) as [K1 K2].
  assert (Q : 0 <= dot n (fun i => w i - ws i) (fun i => w i - ws i)) by apply dot_self_nonneg.
  split; [|split; [split; [nra|exact K1]|]].
  - split; [apply SD|]. intros w' [HC HT']. destruct SD as [S1 S2 [S3 S3'] S4 S5 S6]. specialize (S5 w').
    assert (P1 : penalty n zs w' <= 0).
    { unfold penalty. apply Rle_trans with (rsum (map (fun _ => 0) zs)).
      - apply rsum_le. intros r Hr. assert (In (fst (fst r), snd (fst r)) (opt_rows G)) by (eapply in_fst; eauto).
        apply HC in H0. specialize (S3 r Hr). nra.
      - right. clear. induction zs; cbn [map]; [reflexivity|]. rewrite rsum_cons, IHzs. ring. }
    assert (E1 : forall x, constrained n G A x -> penalty n ys x = 0).
    { intros x HX. unfold penalty. rewrite (map_ext_in _ (fun _ => 0)).
      - clear. induction ys; cbn [map]; [reflexivity|]. rewrite rsum_cons, IHys. ring.
      - intros r Hr. assert (In (fst (fst r), snd (fst r)) (opt_rows A)) by (eapply in_fst; eauto). apply HX in H0. rewrite H0. ring. }
    assert (P2 : target_penalty n mean target zt w' <= 0) by (unfold target_penalty; destruct target as [t|]; [cbn in HT'; nra|lra]).
    rewrite (E1 w' HC), (E1 ws (proj1 S4)) in S5. lra.
  - apply Rmult_le_reg_r with m; [exact Hm|]. replace ((e + d * (mass zs + mass ys + zt)) / m * m) with (e + d * (mass zs + mass ys + zt)) by (field; lra).
    replace (sumn n (fun i => (w i - ws i) ^ 2)) with (dot n (fun i => w i - ws i) (fun i => w i - ws i)) by (unfold dot; apply sumn_ext; intros; ring).
    lra.
Qed.
Print Assumptions mv_inexact_close.

(** An exact solver is inexact with tolerances zero, and then all of the above collapses to the exact statements. *)
Theorem exact_is_inexact : forall q c, exact_qp q -> exact_cp c -> approx_qp 0 0 q /\ approx_cp 0 0 c.
Proof.
  intros q c Hq Hc. split.
  - intros p x H. apply Hq in H as [[F1 F2] O]. split; [split|].
    + intros g h Hi. rewrite Rplus_0_r. auto.
    + intros a b Hi. rewrite (F2 a b Hi), Rminus_diag_eq, Rabs_R0 by reflexivity. lra.
    + intros y Hy. rewrite Rplus_0_r. auto.
  - intros p x H. apply Hc in H as [[F1 [F2 F3]] O]. split; [split; [|split]|].
    + intros g h Hi. rewrite Rplus_0_r. auto.
    + intros a b Hi. rewrite (F2 a b Hi), Rminus_diag_eq, Rabs_R0 by reflexivity. lra.
    + intros blk Hi. specialize (F3 blk Hi). unfold near_soc. unfold soc_ok in F3. destruct (map _ blk); [exact I|]. rewrite Rplus_0_r. exact F3.
    + intros y Hy. rewrite Rplus_0_r. auto.
Qed.
Print Assumptions exact_is_inexact.

(** * C150: mean-CVaR *)
Theorem mean_cvar_inexact :
  forall lp N T Rm p alpha w0 costs G A target d e w cost, approx_cp d e lp -> prob_vec T p -> 0 < alpha -> 0 <= d ->
    (forall c, costs = Some c -> forall i, (i < N)%nat -> 0 <= nth i c 0) ->
    cvar_cost N T Rm p alpha w0 costs cost ->
    cvar_portfolio lp N T Rm p alpha w0 costs G A target = Ok w ->
    near_constrained d N G A w /\ near_meets d N (cvar_mean T p Rm) target w /\
    within (e + d / alpha + 3 * d * cost_rate costs w0 N)
      (fun w => constrained N G A w /\ meets N (cvar_mean T p Rm) target w) cost w.
Proof.
  intros lp N T Rm p alpha w0 costs G A target d e w cost Hs Hp Ha D Hc Hcost H. unfold cvar_portfolio in H.
  apply cvar_init_inv in H as [H _]. eapply cvar_near; eauto.
Qed.
Print Assumptions mean_cvar_inexact.

(** * C151: frontiers *)
Theorem mv_frontier_inexact :
  forall solve lp n mean cov G A w0 lam num cols d e d' e', approx_qp d e solve -> approx_cp d' e' lp -> 0 <= d ->
    (forall l, lam = Some l -> w0 <> None -> length l = n) ->
    complete_qp solve -> attained (constrained n G A) n mean (mv_cost n cov w0 lam) ->
    mv_frontier solve lp n mean cov G A w0 lam num = Ok cols ->
    exists mr, near_max d' e' n G A mean mr /\ near_constrained d n G A (nth 0 cols zrow) /\
      within e (constrained n G A) (mv_cost n cov w0 lam) (nth 0 cols zrow) /\
      ((frontier_collapses num (dot n mean (nth 0 cols zrow)) mr /\ length cols = 1%nat) \/
       near_frontier d e n G A mean (mv_cost n cov w0 lam) mr (Z.to_nat num) cols).
Proof. intros. eapply mv_frontier_near; eauto. Qed.
Print Assumptions mv_frontier_inexact.

Theorem cvar_frontier_inexact :
  forall lp N T Rm p alpha w0 costs G A num cols cost d e, approx_cp d e lp -> prob_vec T p -> 0 < alpha <= 1 -> 0 <= d ->
    (forall c, costs = Some c -> forall i, (i < N)%nat -> 0 <= nth i c 0) ->
    cvar_cost N T Rm p alpha w0 costs cost ->
    cvar_frontier lp N T Rm p alpha w0 costs G A num = Ok cols ->
    let e' := e + d / alpha + 3 * d * cost_rate costs w0 N in
    exists mr, near_max d e N G A (cvar_mean T p Rm) mr /\ near_constrained d N G A (nth 0 cols zrow) /\
      within e' (constrained N G A) cost (nth 0 cols zrow) /\
      ((frontier_collapses num (dot N (cvar_mean T p Rm) (nth 0 cols zrow)) mr /\ length cols = 1%nat) \/
       near_frontier d e' N G A (cvar_mean T p Rm) cost mr (Z.to_nat num) cols).
Proof. intros. eapply cvar_frontier_near; eauto. Qed.
Print Assumptions cvar_frontier_inexact.

(** When the columns are feasible to the letter, risk rises along the frontier up to [e]. *)
Theorem frontier_inexact_monotone :
  forall e n G A mean cost mr num cols, near_frontier 0 e n G A mean cost mr num cols -> dot n mean (nth 0 cols zrow) <= mr ->
    forall j k, (j <= k < num)%nat -> cost (nth j cols zrow) <= cost (nth k cols zrow) + e.
Proof. exact near_frontier_mono. Qed.
Print Assumptions frontier_inexact_monotone.

(** An exact quadratic solver does not save the frontier from an LP solver that is off by [d], however small: the
    greatest return it reports may be out of reach, and the whole call then raises. *)
Definition pin_qp (p0 : qp) (x0 : vec) (p : qp) : option vec := if emdec (p = p0) then Some x0 else best_qp p.
Definition pin_cp (p0 : cp) (x0 : vec) (p : cp) : option vec := if emdec (p = p0) then Some x0 else best_cp p.
Lemma near_cp_mono d p x : 0 <= d -> near_cp 0 p x -> near_cp d p x.
Proof.
  intros D (H1 & H2 & H3). split; [|split].
  - intros g h Hi. specialize (H1 g h Hi). lra.
  - intros a b Hi. specialize (H2 a b Hi). lra.
  - intros blk Hi. specialize (H3 blk Hi). unfold near_soc in *. destruct (map _ blk); auto. lra.
Qed.
Lemma pin_cp_approx d e p0 x0 : 0 <= d -> 0 <= e -> near_cp d p0 x0 -> (forall y, cp_feasible p0 y -> cp_obj p0 x0 <= cp_obj p0 y + e) ->
  approx_cp d e (pin_cp p0 x0) /\ complete_cp (pin_cp p0 x0) /\ pin_cp p0 x0 p0 = Some x0.
Proof.
  intros D E0 H1 H2. unfold pin_cp. split; [|split].
  - intros p x H. destruct (emdec _) as [->|]; [injection H as <-; auto|].
    destruct (proj2 (exact_is_inexact _ _ best_qp_exact best_cp_exact) p x H) as [N O]. split; [apply near_cp_mono; auto|].
    intros y Hy. specialize (O y Hy). lra.
  - intros p x Hx. destruct (emdec _); [discriminate|]. apply (best_cp_complete p x Hx).
  - destruct (emdec _) as [|K]; [reflexivity|congruence].
Qed.
Lemma pin_qp_approx d e p0 x0 : 0 <= d -> 0 <= e -> near_qp d p0 x0 -> (forall y, qp_feasible p0 y -> qp_obj p0 x0 <= qp_obj p0 y + e) ->
  approx_qp d e (pin_qp p0 x0) /\ complete_qp (pin_qp p0 x0) /\ pin_qp p0 x0 p0 = Some x0.
Proof.
  intros D E0 H1 H2. unfold pin_qp. split; [|split].
  - intros p x H. destruct (emdec _) as [->|]; [injection H as <-; auto|].
    destruct (proj1 (exact_is_inexact _ _ best_qp_exact best_cp_exact) p x H) as [[N1 N2] O]. split; [split|].
    + intros g h Hi. specialize (N1 g h Hi). lra.
    + intros a b Hi. specialize (N2 a b Hi). lra.
    + intros y Hy. specialize (O y Hy). lra.
  - intros p x Hx. destruct (emdec _); [discriminate|]. apply (best_qp_complete p x Hx).
  - destruct (emdec _) as [|K]; [reflexivity|congruence].
Qed.

Lemma mapM_only_err {X Y} (f : X -> res Y) l e : (forall x e', f x = Err e' -> e' = e) -> (exists x, In x l /\ forall y, f x <> Ok y) -> mapM f l = Err e.
Proof.
  intros H1. induction l as [|a l IH]; intros (x & Hi & Hx); [destruct Hi|]. cbn [mapM].
  destruct (f a) as [y|e'] eqn:E; cbn [bind]; [|f_equal; eauto]. destruct Hi as [<-|Hi]; [exfalso; eapply Hx; eauto|].
  rewrite IH by eauto. reflexivity.
Qed.

Theorem frontier_inexact_raises_refuted :
  forall d num, 0 < d -> (2 <= num)%Z -> exists lp,
    approx_cp d 0 lp /\ complete_cp lp /\ exact_qp best_qp /\ complete_qp best_qp /\
    constrained 2 lo2 bud2 (pt2 0 1) /\ bounded 2 (constrained 2 lo2 bud2) /\
    mv_frontier best_qp lp 2 mean2 id2 lo2 bud2 None None num = Err RuntimeError.
Proof.
  intros d num D Hnum.
  assert (M : forall w, dot 2 mean2 w = w 1%nat) by (intros; rewrite dot2; unfold mean2, of_list; simpl; lra).
  set (p0 := max_return_lp 2 (hcat 2 (ropp mean2) zrow) (opt_rows lo2) (opt_rows bud2)).
  assert (Obj : forall x, cp_obj p0 x = - x 1%nat) by (intros; unfold cp_obj, p0; cbn [max_return_lp cp_n cp_c]; rewrite dot_hcat0, dot_ropp, M; reflexivity).
  assert (Feas : forall y, cp_feasible p0 y -> constrained 2 lo2 bud2 y) by (intros y (Y1 & Y2 & _); split; auto).
  destruct (pin_cp_approx d 0 p0 (pt2 0 (1 + d))) as (A1 & A2 & A3); [lra|lra| | |].
  { split; [|split].
    - unfold p0, max_return_lp, lo2; cbn [cp_lin cp_n opt_rows]. intros g h Hi. rewrite dot2.
      repeat (destruct Hi as [Hi|Hi]; [injection Hi as <- <-; unfold pt2, of_list, ropp, eye_row, delta; simpl; lra|]). destruct Hi.
    - unfold p0, max_return_lp, bud2; cbn [cp_eq cp_n opt_rows]. intros a b Hi. rewrite dot2.
      destruct Hi as [Hi|[]]. injection Hi as <- <-. unfold pt2, of_list, cst; simpl. apply Rabs_le. lra.
    - intros blk []. }
  { intros y Hy. apply Feas, constrained2 in Hy. rewrite !Obj. unfold pt2, of_list. simpl. lra. }
  exists (pin_cp p0 (pt2 0 (1 + d))). split; [exact A1|]. split; [exact A2|]. split; [exact best_qp_exact|]. split; [exact best_qp_complete|].
  split; [apply constrained2; unfold pt2, of_list; simpl; lra|]. split; [exact simplex2_bounded|].
  unfold mv_frontier. cbn [mv_terms bind].
  change (fun i j : nat => 2 * id2 i j) with P2.
  pose proof (mv2_opt (1 / 2) ltac:(lra) None (or_intror (conj eq_refl eq_refl))) as MO.
  unfold mv_solve_target at 1. destruct (best_qp (mv_qp 2 mean2 P2 zrow lo2 bud2 None)) as [first|] eqn:EB; [|exfalso; eapply best_qp_complete; eauto].
  cbn [bind]. apply best_qp_exact in EB as [FC FM]. apply mv_feasible_iff in FC as [FC _]. specialize (FM _ (proj1 MO)).
  unfold qp_obj in FM; cbn [mv_qp qp_n qp_P qp_q] in FM. rewrite !dot_zrow, !quad2 in FM. unfold P2, id2, delta, pt2, of_list in FM. simpl in FM.
  unfold max_expected_return. change (max_return_lp 2 (hcat 2 (ropp mean2) zrow) (opt_rows lo2) (opt_rows bud2)) with p0. rewrite A3. cbn [bind].
  rewrite Obj. replace (- - pt2 0 (1 + d) 1%nat) with (1 + d) by (unfold pt2, of_list; simpl; ring).
  assert (F1 : first 1%nat <= 1 / 2).
  { apply constrained2 in FC. assert (E0 : first 0%nat = 1 - first 1%nat) by lra. rewrite E0 in FM. nra. }
  unfold frontier. rewrite M. destruct (Z.ltb_spec num 2); [lia|]. cbn [orb].
  unfold risclose. destruct (Rleb_spec (Rabs (first 1%nat - (1 + d))) (1 / 100000000 + 1 / 100000 * Rabs (1 + d))) as [K|K].
  { exfalso. rewrite (Rabs_right (1 + d)) in K by lra. rewrite Rabs_left in K by lra. lra. }
  rewrite (mapM_only_err _ _ RuntimeError); [reflexivity| |].
  - intros x e' H'. unfold mv_solve_target in H'. destruct (best_qp _); [discriminate|]. destruct (best_qp _); congruence.
  - exists (1 + d). split.
    + apply in_map_iff. exists (Z.to_nat num - 1)%nat. split; [|apply in_seq; lia]. unfold grid_point.
      assert (E : INR (Z.to_nat num - 1) = IZR num - 1).
      { rewrite minus_INR by lia. rewrite INR_IZR_INZ, Z2Nat.id by lia. reflexivity. }
      rewrite E. assert (1 < IZR num) by (apply IZR_lt; lia). field. lra.
    + intros y H'. destruct (mv_solve_spec best_qp 2 mean2 _ _ lo2 bud2 (Some (1 + d)) y best_qp_exact H') as (r & _ & _ & [[Hy1 Hy2] _]).
      apply constrained2 in Hy1. unfold meets in Hy2. rewrite M in Hy2. lra.
Qed.
Print Assumptions frontier_inexact_raises_refuted.

(** * C152: maximum Sharpe *)
Theorem max_sharpe_inexact :
  forall solve n mean cov G A rf r d e, approx_qp d e solve -> 0 <= d < 1 -> 0 <= e -> homogeneous_set n G A ->
    max_sharpe solve n mean cov G A rf = Ok r ->
    0 < excess n mean rf (r_weights r) -> 0 < quad n cov (r_weights r) ->
    sumn n (r_weights r) = 1 /\
    near_constrained (d * excess n mean rf (r_weights r) / (1 - d)) n G A (r_weights r) /\
    r_return r = dot n mean (r_weights r) /\ r_risk r = sqrt (quad n cov (r_weights r)) /\
    forall w', constrained n G A w' -> sumn n w' = 1 -> 0 < quad n cov w' ->
      (1 - d) * sharpe n mean cov rf w' <= sharpe n mean cov rf (r_weights r) * sqrt (1 + e * sharpe n mean cov rf w' ^ 2).
Proof. exact sharpe_near. Qed.
Print Assumptions max_sharpe_inexact.

(** * C153: robust allocation *)
Theorem robust_lambda_inexact :
  forall conelp chol n mean Sg w0 costs G A lam r d e, approx_cp d e conelp -> exact_chol chol ->
    robust_lambda conelp chol n mean Sg w0 costs G A lam = Ok r ->
    0 <= lam /\ exists L j, 0 <= j <= 1 / 10000000 /\ is_cholesky n (plus_jitter (symmetrise Sg) j) L /\
      near_constrained d n G A (r_weights r) /\ r_return r = dot n mean (r_weights r) /\
      norm2 n (mv n L (r_weights r)) <= r_risk r + d /\
      forall w v v', constrained n G A w ->
        worst_return n mean (transpose L) lam (r_weights r) v -> worst_return n mean (transpose L) lam w v' -> v' - (e + lam * d) <= v.
Proof.
  intros conelp chol n mean Sg w0 costs G A lam r d e Hs Hch H. unfold robust_lambda, robust_init in H.
  apply bind_ok in H as (L & EL & H). destruct (cholesky_pd_l chol n Sg L Hch EL) as (j & Hj & Hj0 & HL).
  assert (H' : exists hc, (if Rltb lam 0 then Err ValueError else robust_socp conelp n mean L hc lam None G A) = Ok r).
  { destruct w0, costs; try (eexists; exact H). unfold check_shapes in H. apply guard_ok in H as [_ H]. eexists; exact H. }
  clear H. destruct H' as [hc H]. destruct (Rltb_spec lam 0) as [|Hl]; [discriminate|]. apply Rnot_lt_le in Hl.
  destruct (robust_near conelp n mean L hc lam None G A r d e Hs Hl H) as (_ & E1 & Hc & Hm & E2 & _).
  split; [exact Hl|]. exists L, j. repeat (split; [assumption|]). intros w v v' Hw Hv Hv'.
  pose proof (worst_return_l n mean (transpose L) lam (r_weights r) Hl) as K1. pose proof (worst_return_l n mean (transpose L) lam w Hl) as K2.
  rewrite (worst_return_unique _ _ _ _ _ _ _ Hv K1), (worst_return_unique _ _ _ _ _ _ _ Hv' K2).
  specialize (Hm w (conj Hw I)). cbv beta in Hm. change (transpose (transpose L)) with L. lra.
Qed.
Print Assumptions robust_lambda_inexact.

Theorem robust_gamma_inexact :
  forall conelp chol n mean Sg w0 costs G A gm gs r d e, approx_cp d e conelp -> exact_chol chol ->
    robust_gamma conelp chol n mean Sg w0 costs G A gm gs = Ok r ->
    0 <= gm /\ 0 <= gs /\ exists L j, 0 <= j <= 1 / 10000000 /\ is_cholesky n (plus_jitter (symmetrise Sg) j) L /\
      near_constrained d n G A (r_weights r) /\ r_return r = dot n mean (r_weights r) /\
      norm2 n (mv n L (r_weights r)) - d <= r_risk r <= sqrt gs + d /\
      within (e + gm * d) (fun w => constrained n G A w /\ norm2 n (mv n L w) <= sqrt gs)
        (fun w => - dot n mean w + gm * norm2 n (mv n L w)) (r_weights r).
Proof.
  intros conelp chol n mean Sg w0 costs G A gm gs r d e Hs Hch H. unfold robust_gamma, robust_init in H.
  apply bind_ok in H as (L & EL & H). destruct (cholesky_pd_l chol n Sg L Hch EL) as (j & Hj & Hj0 & HL).
  assert (H' : exists hc, (if Rltb gm 0 || Rltb gs 0 then Err ValueError else robust_socp conelp n mean L hc gm (Some gs) G A) = Ok r).
  { destruct w0, costs; try (eexists; exact H). unfold check_shapes in H. apply guard_ok in H as [_ H]. eexists; exact H. }
  clear H. destruct H' as [hc H]. destruct (Rltb_spec gm 0) as [|Hm]; [discriminate|]. destruct (Rltb_spec gs 0) as [|Hg]; [discriminate|].
  apply Rnot_lt_le in Hm, Hg. cbn [orb] in H.
  destruct (robust_near conelp n mean L hc gm (Some gs) G A r d e Hs Hm H) as (_ & E1 & Hc & Hw & E2 & E3).
  split; [exact Hm|]. split; [exact Hg|]. exists L, j. do 4 (split; [assumption|]). split; [split; [lra|exact E3]|exact Hw].
Qed.
Print Assumptions robust_gamma_inexact.

(** * C154: relaxed risk parity *)
Theorem rrp_inexact :
  forall conelp lp chol n mean cov0 G A rb lam target mint r d e, approx_cp d e conelp -> exact_chol chol -> 0 <= d ->
    rrp_solve conelp lp chol n mean cov0 G A rb lam target mint = Ok r ->
    exists L bud j, risk_budgets n rb = Ok bud /\ 0 <= lam /\ 0 <= j <= 1 / 10000000 /\
      is_cholesky n (plus_jitter (symmetrise (symmetrise cov0)) j) L /\
      near_rrp d n mean (symmetrise cov0) L bud lam G A (rr_target r) (rr_weights r) (rr_marginal r) (rr_psi r) (rr_gamma r) (rr_rho r) /\
      rr_objective r = rr_psi r - rr_gamma r /\
      (forall x psi gamma rho, rrp_point n mean (symmetrise cov0) L bud lam G A (rr_target r) x psi gamma rho ->
         rr_objective r <= psi - gamma + e).
Proof. exact rrp_near. Qed.
Print Assumptions rrp_inexact.

(** * Cases: every theorem above with a solver that is really inexact *)
Lemma mean2_dot w : dot 2 mean2 w = w 1%nat.
Proof. rewrite dot2. unfold mean2, of_list. simpl. lra. Qed.
Definition mv2_qp : qp := mv_qp 2 mean2 P2 zrow lo2 bud2 None.
Lemma mv2_obj w : qp_obj mv2_qp w = w 0%nat * w 0%nat + w 1%nat * w 1%nat.
Proof. unfold qp_obj, mv2_qp; cbn [mv_qp qp_n qp_P qp_q]. rewrite dot_zrow, quad2. unfold P2, id2, delta. simpl. lra. Qed.

(** The solver over-invests by a tenth; the answer is off budget but within the promised bounds. *)
Example mv_inexact_case :
  let solve := pin_qp mv2_qp (pt2 (6 / 10) (5 / 10)) in
  approx_qp (1 / 10) (11 / 100) solve /\ complete_qp solve /\ ~ exact_qp solve /\
  mv_portfolio solve 2 mean2 id2 lo2 bud2 None None None = Ok (pt2 (6 / 10) (5 / 10)) /\
  ~ constrained 2 lo2 bud2 (pt2 (6 / 10) (5 / 10)) /\
  saddle 2 lo2 bud2 mean2 None (mv_cost 2 id2 None None) [(ropp (eye_row 0), 0, 0); (ropp (eye_row 1), 0, 0)] [(cst 1, 1, -1)] 0 (pt2 (1 / 2) (1 / 2)) /\
  (forall x, 1 * dot 2 x x <= quad 2 id2 x).
Proof.
  intros solve.
  assert (NC : ~ constrained 2 lo2 bud2 (pt2 (6 / 10) (5 / 10))) by (rewrite constrained2; unfold pt2, of_list; simpl; lra).
  destruct (pin_qp_approx (1 / 10) (11 / 100) mv2_qp (pt2 (6 / 10) (5 / 10))) as (A1 & A2 & A3); [lra|lra| | |].
  { split.
    - unfold mv2_qp, lo2; cbn [mv_qp qp_ineq qp_n with_target opt_rows]. intros g h Hi. rewrite dot2.
      repeat (destruct Hi as [Hi|Hi]; [injection Hi as <- <-; unfold pt2, of_list, ropp, eye_row, delta; simpl; lra|]). destruct Hi.
    - unfold mv2_qp, bud2; cbn [mv_qp qp_eq qp_n opt_rows]. intros a b Hi. rewrite dot2.
      destruct Hi as [Hi|[]]. injection Hi as <- <-. unfold pt2, of_list, cst; simpl. apply Rabs_le. lra. }
  { intros y Hy. apply mv_feasible_iff in Hy as [Hy _]. apply constrained2 in Hy. rewrite !mv2_obj. unfold pt2, of_list. simpl.
    replace (y 0%nat) with (1 - y 1%nat) by lra. pose proof (Rle_0_sqr (y 1%nat - 1 / 2)) as K. unfold Rsqr in K. lra. }
  split; [exact A1|]. split; [exact A2|]. split; [|split; [|split; [exact NC|split]]].
  - intros Hx. apply NC. apply Hx in A3 as [A3 _]. apply mv_feasible_iff in A3. apply A3.
  - unfold mv_portfolio. cbn [mv_terms bind]. unfold mv_solve_target. change (mv_qp 2 mean2 (fun i j : nat => 2 * id2 i j) zrow lo2 bud2 None) with mv2_qp.
    unfold solve. rewrite A3. reflexivity.
  - constructor; try reflexivity.
    + split; [|lra]. intros r [<-|[<-|[]]]; simpl; lra.
    + split; [apply constrained2; unfold pt2, of_list; simpl; lra|exact I].
    + intros w'. unfold mv_cost, impact, penalty, target_penalty. cbn [map]. rewrite !rsum_cons. cbn [fst snd]. rewrite !quad2, !dot2.
      unfold id2, delta, pt2, of_list, cst. simpl.
      pose proof (Rle_0_sqr (w' 0%nat - 1 / 2)) as K1. pose proof (Rle_0_sqr (w' 1%nat - 1 / 2)) as K2. unfold Rsqr in K1, K2. lra.
    + unfold penalty, target_penalty. cbn [map]. rewrite !rsum_cons. cbn [fst snd]. simpl. ring.
  - intros x. rewrite dot2, quad2. unfold id2, delta. simpl. lra.
Qed.

(** One asset, one scenario. *)
Definition one1 : option rows := Some [(cst 1, 1)].
Example mean_cvar_inexact_case : exists lp w,
  approx_cp (1 / 10) 0 lp /\ prob_vec 1 (fun _ => 1) /\
  cvar_portfolio lp 1 1 (fun _ _ => 1) (fun _ => 1) (1 / 2) None None None one1 None = Ok w /\ ~ constrained 1 None one1 w.
Proof.
  set (p0 := cvar_lp 1 1 (fun _ _ => 1) (fun _ => 1) (1 / 2) (turnover None None) None one1 None).
  set (x0 := of_list [11 / 10; - (11 / 10); 0]).
  assert (Obj : forall x, cp_obj p0 x = x 1%nat + 2 * x 2%nat) by (intros; unfold cp_obj, p0, dot; simpl; unfold cvar_c, hcat, cst, zrow; simpl; lra).
  destruct (pin_cp_approx (1 / 10) 0 p0 x0) as (A1 & _ & A3); [lra|lra| | |].
  { split; [|split].
    - unfold p0, dot; simpl. intros g h Hi.
      repeat (destruct Hi as [Hi|Hi]; [injection Hi as <- <-; unfold x0, of_list, hcat, ropp, eye_row, delta, cst, zrow; simpl; lra|]). destruct Hi.
    - unfold p0, dot; simpl. intros a b Hi. destruct Hi as [Hi|[]]. injection Hi as <- <-. unfold x0, of_list, hcat, cst, zrow; simpl. apply Rabs_le. lra.
    - intros blk []. }
  { intros y (Y1 & Y2 & _). rewrite !Obj. unfold x0, of_list; simpl.
    unfold p0, dot in Y1, Y2; simpl in Y1, Y2. pose proof (Y1 _ _ (or_introl eq_refl)) as B1. pose proof (Y1 _ _ (or_intror (or_introl eq_refl))) as B2.
    pose proof (Y2 _ _ (or_introl eq_refl)) as B3. unfold hcat, ropp, eye_row, delta, cst, zrow in B1, B2, B3; simpl in B1, B2, B3. lra. }
  exists (pin_cp p0 x0), x0. split; [exact A1|]. split; [split; [intros; lra|simpl; lra]|]. split.
  - unfold cvar_portfolio, cvar_init, cvar_solve_target. fold p0. simpl turnover. cbv iota. 
    change (cvar_lp 1 1 (fun _ _ => 1) (fun _ => 1) (1 / 2) None None one1 None) with p0. rewrite A3. reflexivity.
  - intros [_ C]. specialize (C (cst 1) 1 (or_introl eq_refl)). unfold dot, x0, of_list, cst in C. simpl in C. lra.
Qed.

(** Two assets, long-only, fully invested: the answer misses the optimum. *)
Definition sh2_qp : qp := sharpe_qp 2 mean2 id2 lo2 bud2 0.
Example max_sharpe_inexact_case : exists solve r,
  approx_qp (1 / 10) (1 / 4) solve /\ homogeneous_set 2 lo2 bud2 /\
  max_sharpe solve 2 mean2 id2 lo2 bud2 0 = Ok r /\ 0 < excess 2 mean2 0 (r_weights r) /\ 0 < quad 2 id2 (r_weights r) /\
  sharpe 2 mean2 id2 0 (r_weights r) < sharpe 2 mean2 id2 0 (pt2 0 1).
Proof.
  set (x0 := pt2 (1 / 2) 1).
  assert (Obj : forall x, qp_obj sh2_qp x = x 0%nat * x 0%nat + x 1%nat * x 1%nat).
  { intros w. unfold qp_obj, sh2_qp; cbn [sharpe_qp qp_n qp_P qp_q]. rewrite dot_zrow, quad2. unfold id2, delta. simpl. lra. }
  destruct (pin_qp_approx (1 / 10) (1 / 4) sh2_qp x0) as (A1 & _ & A3); [lra|lra| | |].
  { split.
    - unfold sh2_qp, lo2; cbn [sharpe_qp qp_ineq qp_n opt_rows map fst]. intros g h Hi. rewrite dot2.
      repeat (destruct Hi as [Hi|Hi]; [injection Hi as <- <-; unfold x0, pt2, of_list, ropp, eye_row, delta; simpl; lra|]). destruct Hi.
    - unfold sh2_qp, bud2; cbn [sharpe_qp qp_eq qp_n opt_rows filter snd]. intros a b Hi. rewrite dot2.
      destruct (Rleb_spec (Rabs 1) (1 / 1000000000000)) as [K|K]; [rewrite Rabs_R1 in K; lra|].
      destruct Hi as [Hi|[]]. injection Hi as <- <-. unfold x0, pt2, of_list, mean2, of_list; simpl. apply Rabs_le. lra. }
  { intros y Hy. apply sharpe_feasible in Hy as [_ Hy]. unfold excess in Hy. rewrite mean2_dot in Hy. rewrite !Obj. unfold x0, pt2, of_list. simpl.
    assert (E : y 1%nat = 1) by lra. rewrite E. pose proof (Rle_0_sqr (y 0%nat)) as K. unfold Rsqr in K. lra. }
  exists (pin_qp sh2_qp x0), (mkRes (fun i => x0 i / sumn 2 x0) (dot 2 mean2 (fun i => x0 i / sumn 2 x0)) (sqrt (quad 2 id2 (fun i => x0 i / sumn 2 x0)))).
  assert (Sm : sumn 2 x0 = 3 / 2) by (unfold x0, pt2, of_list; simpl; lra).
  assert (W0 : x0 0%nat / sumn 2 x0 = 1 / 3) by (rewrite Sm; unfold x0, pt2, of_list; simpl; field).
  assert (W1 : x0 1%nat / sumn 2 x0 = 2 / 3) by (rewrite Sm; unfold x0, pt2, of_list; simpl; field).
  assert (Q : quad 2 id2 (fun i => x0 i / sumn 2 x0) = 5 / 9) by (rewrite quad2, W0, W1; unfold id2, delta; simpl; field).
  assert (X : excess 2 mean2 0 (fun i => x0 i / sumn 2 x0) = 2 / 3) by (unfold excess; rewrite mean2_dot, W1; lra).
  cbn [r_weights]. split; [exact A1|]. split; [|split; [|split; [lra|split; [lra|]]]].
  - split; [intros g h [E|[E|[]]]; injection E as <- <-; reflexivity|]. intros a b [E|[]]. injection E as <- <-. right. split; reflexivity.
  - unfold max_sharpe. fold sh2_qp. rewrite A3. rewrite Sm. destruct (Rltb_spec (Rabs (3 / 2)) (1 / 1000000000000)) as [K|K]; [rewrite Rabs_right in K; lra|].
    reflexivity.
  - assert (QB : quad 2 id2 (pt2 0 1) = 1) by (rewrite quad2; unfold id2, delta, pt2, of_list; simpl; ring).
    assert (XB : excess 2 mean2 0 (pt2 0 1) = 1) by (unfold excess; rewrite mean2_dot; unfold pt2, of_list; simpl; ring).
    unfold sharpe. rewrite Q, X, QB, XB, sqrt_1.
    assert (2 / 3 < sqrt (5 / 9)).
    { rewrite <- (sqrt_square (2 / 3)) by lra. apply sqrt_lt_1; lra. }
    apply Rmult_lt_reg_r with (sqrt (5 / 9)); [lra|]. unfold Rdiv at 1. rewrite Rmult_assoc, Rinv_l by lra. lra.
Qed.

(** One risky asset: the reported risk is short of the true one. *)
Example robust_inexact_case : exists conelp r,
  approx_cp (1 / 10) 0 conelp /\ exact_chol best_chol /\
  robust_lambda conelp best_chol 1 (fun _ => 1) (fun _ _ => 1) None None None one1 (1 / 2) = Ok r /\ r_risk r = 9 / 10.
Proof.
  destruct (cholesky_pd_total best_chol 1 (fun _ _ => 1) best_chol_complete) as [L HL].
  { intros x. unfold quad. simpl. nra. }
  set (p0 := robust_cp 1 (fun _ => 1) L (1 / 2) None None one1). 
  destruct (cholesky_pd_l best_chol 1 _ L best_chol_exact HL) as (j & Hj & Hj0 & C).
  assert (N : forall w, norm2 1 (mv 1 L w) = Rabs (L 0%nat 0%nat * w 0%nat)).
  { intros w. unfold norm2, mv, dot. simpl. rewrite !Rplus_0_l. apply sqrt_Rsqr_abs. }
  assert (J : j = 0).
  { apply Hj0, (best_chol_complete 1%nat _ (fun _ _ => 1)). split; [|split].
    - intros; lra.
    - intros i k H. lia.
    - intros i k H1 H2. unfold mmul, transpose, symmetrise. simpl. lra. }
  assert (L1 : L 0%nat 0%nat = 1).
  { destruct C as (C1 & _ & C3). specialize (C1 0%nat ltac:(lia)). specialize (C3 0%nat 0%nat ltac:(lia) ltac:(lia)).
    unfold mmul, transpose, plus_jitter, symmetrise in C3. simpl in C3. rewrite J in C3. nra. }
  assert (Bud : forall w, constrained 1 None one1 w <-> w 0%nat = 1).
  { intros w. split.
    - intros [_ B]. specialize (B (cst 1) 1 (or_introl eq_refl)). unfold dot, cst in B. simpl in B. lra.
    - intros B. split; [intros g h []|]. intros a b [E|[]]. injection E as <- <-. unfold dot, cst. simpl. lra. }
  destruct (pin_cp_approx (1 / 10) 0 p0 (of_list [1; 9 / 10])) as (A1 & _ & A3); [lra|lra| | |].
  { split; [|split].
    - intros g h [].
    - intros a b [E|[]]. injection E as <- <-. cbn [p0 robust_cp cp_n fst snd]. rewrite dot_hcat_pad. unfold dot, cst, of_list. simpl. apply Rabs_le. lra.
    - intros blk [<-|[]]. unfold near_soc. cbn [p0 robust_cp cp_n seq map]. rewrite dot_hcat_pad, dot_hcat, dot_zrow, dot_cst1, dot_ropp.
      rewrite rsum_cons. unfold shift, dot, of_list. simpl. rewrite L1.
      match goal with |- sqrt ?z <= _ => replace z with 1 by ring end. rewrite sqrt_1. lra. }
  { intros y Hy. unfold p0. rewrite !robust_obj. apply robust_feasible in Hy as (B & Y & _). apply Bud in B. rewrite N, L1, B, Rabs_right in Y by lra.
    unfold dot, of_list. simpl. rewrite B. lra. }
  exists (pin_cp p0 (of_list [1; 9 / 10])), (mkRes (of_list [1; 9 / 10]) (dot 1 (fun _ => 1) (of_list [1; 9 / 10])) (9 / 10)).
  split; [exact A1|]. split; [exact best_chol_exact|]. split; [|reflexivity].
  unfold robust_lambda, robust_init. rewrite HL. cbn [bind]. destruct (Rltb_spec (1 / 2) 0); [lra|]. unfold robust_socp. fold p0. rewrite A3. reflexivity.
Qed.

(** One asset: the pinned point spends less risk budget than it could. *)
Example rrp_inexact_case : exists conelp r,
  approx_cp 0 (1 / 10) conelp /\ exact_chol best_chol /\
  rrp_solve conelp best_cp best_chol 1 (fun _ => 1) (fun _ _ => 1) None None None 0 None None = Ok r /\ rr_objective r = 1 / 10.
Proof.
  set (cov := symmetrise (fun _ _ => 1)).
  destruct (cholesky_pd_total best_chol 1 cov best_chol_complete) as [L HL].
  { intros x. unfold quad, cov, symmetrise. simpl. nra. }
  destruct (cholesky_pd_l best_chol 1 _ L best_chol_exact HL) as (j & Hj & Hj0 & C).
  assert (N : forall w, norm2 1 (mv 1 L w) = Rabs (L 0%nat 0%nat * w 0%nat)).
  { intros w. unfold norm2, mv, dot. simpl. rewrite !Rplus_0_l. apply sqrt_Rsqr_abs. }
  assert (J : j = 0).
  { apply Hj0, (best_chol_complete 1%nat _ (fun _ _ => 1)). split; [|split].
    - intros; lra.
    - intros i k H. lia.
    - intros i k H1 H2. unfold mmul, transpose, cov, symmetrise. simpl. lra. }
  assert (L1 : L 0%nat 0%nat = 1).
  { destruct C as (C1 & _ & C3). specialize (C1 0%nat ltac:(lia)). specialize (C3 0%nat 0%nat ltac:(lia) ltac:(lia)).
    unfold mmul, transpose, plus_jitter, cov, symmetrise in C3. simpl in C3. rewrite J in C3. nra. }
  destruct (risk_budgets 1 None) as [bud|] eqn:EB; [|discriminate EB].
  assert (B1 : bud 0%nat = 1) by (injection EB as <-; simpl; field).
  assert (Hbud : forall i, (i < 1)%nat -> 0 <= bud i) by (intros i Hi; assert (i = 0%nat) by lia; subst; lra).
  set (p0 := rrp_cp 1 (fun _ => 1) cov L bud 0 None None None).
  assert (Pt : rrp_point 1 (fun _ => 1) cov L bud 0 None None None (fun _ => 1) 1 (9 / 10) 0).
  { constructor.
    - intros; lra.
    - intros i Hi. unfold mv, dot, cov, symmetrise. simpl. lra.
    - lra.
    - split; intros ? ? [].
    - intros _. simpl. lra.
    - exact I.
    - intros i Hi. assert (i = 0%nat) by lia; subst. rewrite B1. unfold risk_contribution, mv, dot, cov, symmetrise. simpl. lra.
    - unfold mv, dot. simpl. rewrite L1. lra.
    - lra. }
  destruct (rrp_complete 1 (fun _ => 1) cov L bud 0 None None None Hbud _ _ _ _ Pt) as (y0 & Y1 & Y2).
  destruct (pin_cp_approx 0 (1 / 10) p0 y0) as (A1 & _ & A3); [lra|lra| | |].
  { destruct Y1 as (F1 & F2 & F3). split; [|split].
    - intros g h Hi. rewrite Rplus_0_r. auto.
    - intros a b Hi. fold p0 in F2. rewrite (F2 a b Hi), Rminus_diag_eq, Rabs_R0 by reflexivity. lra.
    - intros blk Hi. specialize (F3 blk Hi). unfold near_soc. unfold soc_ok in F3. fold p0 in F3. destruct (map _ blk); [exact I|]. rewrite Rplus_0_r. exact F3. }
  { intros y Hy. unfold p0. rewrite Y2, rrp_obj. apply rrp_sound in Hy as [[R1 R2 R3 R4 R5 R6 R7 R8 R9] _]; auto.
    specialize (R5 ltac:(intros a b [])). simpl in R5. specialize (R7 0%nat ltac:(lia)). specialize (R1 0%nat ltac:(lia)).
    unfold risk_contribution, mv, dot, cov, symmetrise in R7. simpl in R7. rewrite B1 in R7.
    unfold mv, dot in R8. simpl in R8. rewrite L1 in R8. assert (E : y 0%nat = 1) by lra. rewrite E in R7, R8.
    assert (tl4 1 y 1%nat <= 1) by nra. assert (1 <= tl4 1 y 0%nat) by nra. lra. }
  unfold rrp_solve. fold cov. 
  eexists (pin_cp p0 y0), _. split; [exact A1|]. split; [exact best_chol_exact|].
  fold cov. rewrite HL. cbn [bind]. rewrite EB. cbn [bind]. destruct (Rltb_spec 0 0); [lra|]. cbn [fst]. fold p0. rewrite A3. split; [reflexivity|].
  cbn [rr_objective]. pose proof Y2 as Y3. rewrite rrp_obj in Y3. unfold tl4, shift in Y3. simpl in *. lra.
Qed.
