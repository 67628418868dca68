(** Theorems about [PortfolioWrapper] (C32, C64-C74).

    A wrapper is one returned by a constructor ([constructed w c], [c] the constraints asked for).  The
    numerical solvers, the Cholesky routine and the sort are exact ([exact_env]); the theorems about
    which requests are answered also ask that they find an optimum whenever there is one.  [best_env]
    below is such an environment, and the examples run the model with it. *)
From Coq Require Import String.
From Verif Require Import RBase QpBase SortLib RiskModel RiskSpec RiskProofs ConsModel ConsSpec ConsProofs MomModel MomSpec MomProofs DistModel DistSpec DistProofs2 DistProofs3 ConvModel OptModel OptSpec OptProofs OptProofs2 OptProofs3 OptProofs6 FrModel FrSpec FrProperties ExistLib ExistSpec OptProofs7 OptProofs8 ExistProperties WrModel WrSpec WrProofs WrProofs2 WrProofs3 WrProofs4 WrProofs5 WrProofs6 WrProofs7 WrProofs8.
Open Scope R_scope.
Open Scope list_scope.

(** * C64: every portfolio returned satisfies the constraints in effect *)
Theorem every_result_satisfies_constraints :
  forall E w c arg k, exact_env E -> constructed w c ->
    let ok l := List.length l = assets w /\ satisfies (effective c arg) (assets w) l in
    (forall t p, min_variance_at_return E w t arg k = Ok p -> ok (p_weights p)) /\
    (forall sim t alpha p, min_cvar_at_return E sim w t alpha arg k = Ok p -> ok (p_weights p)) /\
    (forall gm gs p, solve_robust_gamma E w gm gs arg k = Ok p -> ok (p_weights p)) /\
    (forall lam mlt t rb p g, relaxed_risk_parity E w lam mlt t rb arg k = Ok (p, g) -> ok (p_weights p)) /\
    (forall num f, variance_frontier E w num arg k = Ok f -> forall col, In col (f_cols f) -> ok col) /\
    (forall sim lab raw num alpha enf f, cvar_frontier_w E sim lab raw w num alpha enf arg k = Ok f -> forall col, In col (f_cols f) -> ok col) /\
    (forall num mx lams rc f pen, robust_lambda_frontier E w num mx lams rc arg k = Ok (f, pen) -> forall col, In col (f_cols f) -> ok col) /\
    (forall num mx lam mults inc rb f meta, relaxed_risk_parity_frontier E w num mx lam mults inc rb arg k = Ok (f, meta) ->
       forall col, In col (f_cols f) -> ok col).
Proof.
  intros E w c arg k HE HC ok.
  split; [intros t p H; exact (all_min_variance E w c arg k HE HC t p H)|].
  split; [intros sim t alpha p H; exact (all_min_cvar E w c arg k HE HC sim t alpha p H)|].
  split; [intros gm gs p H; exact (all_gamma E w c arg k HE HC gm gs p H)|].
  split; [intros lam mlt t rb p g H; exact (all_rrp E w c arg k HE HC lam mlt t rb p g H)|].
  split; [intros num f H; exact (all_variance_frontier E w c arg k HE HC num f H)|].
  split; [intros sim lab raw num alpha enf f H; exact (all_cvar_frontier E w c arg k HE HC sim lab raw num alpha enf f H)|].
  split; [intros num mx lams rc f pen H; exact (all_robust E w c arg k HE HC num mx lams rc f pen H)|].
  intros num mx lam mults inc rb f meta H. exact (all_rrp_frontier E w c arg k HE HC num mx lam mults inc rb f meta H).
Qed.
Print Assumptions every_result_satisfies_constraints.

(** A wrapper built without any constraint is not unconstrained: every call then behaves as if the default
    long-only, fully invested constraints had been passed. *)
Theorem unconstrained_wrapper_refuted :
  forall E d k w, valid_dist d -> make_wrapper d CNone k false None None = Ok w ->
    vacuous (asked CNone false None None) (assets w) /\
    (forall t kk, min_variance_at_return E w t CNone kk = min_variance_at_return E w t (CObj default_constraints) kk) /\
    (forall sim t alpha kk, min_cvar_at_return E sim w t alpha CNone kk = min_cvar_at_return E sim w t alpha (CObj default_constraints) kk) /\
    (forall num kk, variance_frontier E w num CNone kk = variance_frontier E w num (CObj default_constraints) kk) /\
    (forall gm gs kk, solve_robust_gamma E w gm gs CNone kk = solve_robust_gamma E w gm gs (CObj default_constraints) kk) /\
    (forall lam mlt t rb kk, relaxed_risk_parity E w lam mlt t rb CNone kk = relaxed_risk_parity E w lam mlt t rb (CObj default_constraints) kk).
Proof.
  intros E d k w V H. unfold make_wrapper in H. apply bind_ok in H as ([m ws] & Hm & H). apply bind_ok in H as ([[iw mic] pc] & _ & H). injection H as <-.
  assert (R_ : resolve_mats (mkW d m iw mic pc false None) CNone = resolve_mats (mkW d m iw mic pc false None) (CObj default_constraints)).
  { unfold resolve_mats. cbn [w_mats w_dist]. unfold to_matrices in Hm. cbn in Hm. destruct (Z.of_nat (d_N d) <=? 0)%Z; [discriminate|]. injection Hm as <- <-. reflexivity. }
  split.
  - intros l _. unfold satisfies; cbn. split; [discriminate|]. split; [exact I|]. repeat (split; [intros ? []|]). split; [exact I|intros ? []].
  - split; [|split; [|split; [|split]]]; intros.
    + unfold min_variance_at_return. rewrite R_. reflexivity.
    + unfold min_cvar_at_return. rewrite R_. reflexivity.
    + unfold variance_frontier. rewrite R_. reflexivity.
    + unfold solve_robust_gamma. rewrite R_. reflexivity.
    + unfold relaxed_risk_parity. rewrite R_. reflexivity.
Qed.
Print Assumptions unconstrained_wrapper_refuted.

(** * C65: minimum variance at a return target *)
(** The weights minimise variance plus market impact among the admissible portfolios whose stored
    expected return reaches the target (plus a ridge term, absent when the unmodified programme has an
    optimum and the solver finds it); return and risk reported are those of the weights. *)
Theorem min_variance_at_return_optimal :
  forall E w c arg k target p mu cov, exact_env E -> constructed w c -> in_force c arg (assets w) -> moments w mu cov ->
    (forall kk l, k = Some kk -> k_mic kk = Some l -> List.length l = assets w) ->
    min_variance_at_return E w target arg k = Ok p ->
    let N := assets w in let x := wts (p_weights p) in
    let F y := allowed (effective c arg) N y /\ target <= dot N mu y in
    let cost := mv_cost N cov (iw_of w k) (mic_of w k) in
    List.length (p_weights p) = N /\ p_names p = d_names (w_dist w) /\
    p_return p = dot N (fst (in_reports w mu cov)) x /\ p_risk p = sqrt (quad N (snd (in_reports w mu cov)) x) /\
    exists r, 0 <= r /\ minimises F (fun y => cost y + r / 2 * dot N y y) x /\
      (complete_qp (e_qp E) -> (exists y, minimises F cost y) -> r = 0).
Proof. exact min_variance_l. Qed.
Print Assumptions min_variance_at_return_optimal.

(** With simple-return moments the reported return reaches the target; with log-return moments it does
    for long-only weights and non-negative variances. *)
Theorem min_variance_at_return_reaches_target :
  forall E w c arg k target p mu cov, exact_env E -> constructed w c -> in_force c arg (assets w) -> moments w mu cov ->
    (forall kk l, k = Some kk -> k_mic kk = Some l -> List.length l = assets w) ->
    min_variance_at_return E w target arg k = Ok p ->
    (w_log w = true -> forall i, (i < assets w)%nat -> 0 <= nth i (p_weights p) 0 /\ 0 <= cov i i) ->
    target <= p_return p.
Proof.
  intros E w c arg k target p mu cov HE HC HF Hm Hk H Hl.
  destruct (min_variance_l E w c arg k target p mu cov HE HC HF Hm Hk H) as (_ & _ & -> & _ & r & _ & [[_ Ht] _] & _).
  eapply Rle_trans; [exact Ht|]. apply report_ge; [reflexivity|exact Hl].
Qed.
Print Assumptions min_variance_at_return_reaches_target.

(** * C74: which requests are answered *)
(** On a bounded set of admissible portfolios, with costs of the right shape, the request is answered
    exactly when some admissible portfolio reaches the target, and otherwise raises
    InfeasibleOptimizationError. *)
Theorem min_variance_at_return_answers :
  forall E w c arg k target mu cov, exact_env E -> complete_qp (e_qp E) -> constructed w c -> in_force c arg (assets w) ->
    costs_fit (assets w) k -> ConsSpec.well_formed (effective c arg) (Z.of_nat (assets w)) -> moments w mu cov ->
    bounded (assets w) (allowed (effective c arg) (assets w)) ->
    let possible := exists y, allowed (effective c arg) (assets w) y /\ target <= dot (assets w) mu y in
    (possible -> exists p, min_variance_at_return E w target arg k = Ok p) /\
    (~ possible -> min_variance_at_return E w target arg k = Err InfeasibleError).
Proof. intros E w c arg k target mu cov HE Hc HC HF Hk Hwf Hm Hb. exact (min_variance_answers_l E w c arg k HE HC HF Hk Hwf target mu cov Hc Hm Hb). Qed.
Print Assumptions min_variance_at_return_answers.

Theorem variance_frontier_answers :
  forall E w c arg k num mu cov, exact_env E -> complete_qp (e_qp E) -> complete_cp (e_lp E) -> constructed w c -> in_force c arg (assets w) ->
    costs_fit (assets w) k -> ConsSpec.well_formed (effective c arg) (Z.of_nat (assets w)) -> moments w mu cov ->
    bounded (assets w) (allowed (effective c arg) (assets w)) ->
    answers_iff (variance_frontier E w num arg k) (exists y, allowed (effective c arg) (assets w) y).
Proof. intros E w c arg k num mu cov HE H1 H2 HC HF Hk Hwf Hm Hb. exact (variance_frontier_answers_l E w c arg k HE HC HF Hk Hwf num mu cov H1 H2 Hm Hb). Qed.
Print Assumptions variance_frontier_answers.

Theorem min_cvar_at_return_answers :
  forall E w c arg k sim target alpha, exact_env E -> complete_cp (e_lp E) -> constructed w c -> in_force c arg (assets w) ->
    costs_fit (assets w) k -> ConsSpec.well_formed (effective c arg) (Z.of_nat (assets w)) ->
    (d_scen (w_dist w) <> None \/ exists mu cov, moments w mu cov) -> pc_nonneg w k -> 0 < alpha < 1 ->
    bounded (assets w) (allowed (effective c arg) (assets w)) ->
    exists T X q, scenario_data sim w T X q /\ prob_vec T q /\
      let possible := exists y, allowed (effective c arg) (assets w) y /\ target <= dot (assets w) (scenario_mean T X q) y in
      (possible -> exists p, min_cvar_at_return E sim w target alpha arg k = Ok p) /\
      (~ possible -> min_cvar_at_return E sim w target alpha arg k = Err InfeasibleError).
Proof. intros E w c arg k sim target alpha HE H1 HC HF Hk Hwf Hm Hp Ha Hb. exact (min_cvar_answers_l E w c arg k HE HC HF Hk Hwf sim target alpha H1 Hm Hp Ha Hb). Qed.
Print Assumptions min_cvar_at_return_answers.

Theorem cvar_frontier_answers :
  forall E w c arg k sim lab raw num alpha enf, exact_env E -> complete_cp (e_lp E) -> constructed w c -> in_force c arg (assets w) ->
    costs_fit (assets w) k -> ConsSpec.well_formed (effective c arg) (Z.of_nat (assets w)) ->
    (d_scen (w_dist w) <> None \/ exists mu cov, moments w mu cov) -> pc_nonneg w k -> 0 < alpha < 1 ->
    bounded (assets w) (allowed (effective c arg) (assets w)) ->
    answers_iff (cvar_frontier_w E sim lab raw w num alpha enf arg k) (exists y, allowed (effective c arg) (assets w) y).
Proof. intros E w c arg k sim lab raw num alpha enf HE H1 HC HF Hk Hwf Hm Hp Ha Hb. exact (cvar_frontier_answers_l E w c arg k HE HC HF Hk Hwf sim lab raw num alpha enf H1 Hm Hp Ha Hb). Qed.
Print Assumptions cvar_frontier_answers.

(** The robust calls are answered when no proportional costs are in use (they raise otherwise, C57). *)
Theorem robust_frontier_answers :
  forall E w c arg k num mx lams rc grid mu cov, exact_env E -> complete_cp (e_cone E) -> complete_chol (e_chol E) -> constructed w c -> in_force c arg (assets w) ->
    costs_fit (assets w) k -> ConsSpec.well_formed (effective c arg) (Z.of_nat (assets w)) -> moments w mu cov ->
    psd (assets w) (uncertainty w cov) -> penalties num mx lams grid -> (iw_of w k = None \/ pc_of w k = None) ->
    bounded (assets w) (allowed (effective c arg) (assets w)) ->
    answers_iff (robust_lambda_frontier E w num mx lams rc arg k) (exists y, allowed (effective c arg) (assets w) y).
Proof. intros E w c arg k num mx lams rc grid mu cov HE H1 H2 HC HF Hk Hwf Hm Hp Hg Hn Hb. exact (robust_answers_l E w c arg k HE HC HF Hwf num mx lams rc grid mu cov H1 H2 Hm Hp Hg Hn Hb). Qed.
Print Assumptions robust_frontier_answers.

Theorem robust_gamma_portfolio_answers :
  forall E w c arg k gm gs mu cov, exact_env E -> constructed w c -> in_force c arg (assets w) ->
    ConsSpec.well_formed (effective c arg) (Z.of_nat (assets w)) ->
    complete_cp (e_cone E) -> complete_chol (e_chol E) -> moments w mu cov -> psd (assets w) (uncertainty w cov) ->
    (iw_of w k = None \/ pc_of w k = None) -> bounded (assets w) (allowed (effective c arg) (assets w)) -> 0 <= gm -> 0 <= gs ->
    exists L, root_of (assets w) (uncertainty w cov) L /\
      answers_iff (solve_robust_gamma E w gm gs arg k)
        (exists y, allowed (effective c arg) (assets w) y /\ norm2 (assets w) (mv (assets w) L y) <= sqrt gs).
Proof. exact gamma_answers_l. Qed.
Print Assumptions robust_gamma_portfolio_answers.

(** Relaxed risk parity: if some long-only, fully invested admissible portfolio has no negative marginal
    risk, the call is answered whatever the return target. *)
Theorem relaxed_risk_parity_answers :
  forall E w c arg k lam mlt target rb bud mu cov, exact_env E -> complete_cp (e_cone E) -> complete_chol (e_chol E) -> constructed w c -> in_force c arg (assets w) ->
    ConsSpec.well_formed (effective c arg) (Z.of_nat (assets w)) -> moments w mu cov -> psd (assets w) cov ->
    risk_budgets (assets w) rb = Ok bud -> 0 <= lam -> (target = None -> mlt = None -> lam = 0) -> (target = None -> forall q, mlt = Some q -> 0 <= q) ->
    (exists x, (forall i, (i < assets w)%nat -> 0 <= x i) /\ sumn (assets w) x = 1 /\
       (forall i, (i < assets w)%nat -> 0 <= mv (assets w) (OptModel.symmetrise cov) x i) /\ allowed (effective c arg) (assets w) x) ->
    exists p g, relaxed_risk_parity E w lam mlt target rb arg k = Ok (p, g).
Proof.
  intros E w c arg k lam mlt target rb bud mu cov HE H1 H2 HC HF Hwf Hm Hp Hb Hl Hn Hq Hx.
  exact (rrp_answers_l E w c arg k HC HF Hwf lam mlt target rb bud mu cov H1 H2 Hm Hp Hb Hl Hn Hq Hx).
Qed.
Print Assumptions relaxed_risk_parity_answers.

Theorem relaxed_risk_parity_frontier_answers :
  forall E w c arg k num mx lam mults inc rb grid bud mu cov, exact_env E -> complete_cp (e_cone E) -> complete_chol (e_chol E) -> constructed w c -> in_force c arg (assets w) ->
    ConsSpec.well_formed (effective c arg) (Z.of_nat (assets w)) -> moments w mu cov -> psd (assets w) cov ->
    risk_budgets (assets w) rb = Ok bud -> 0 <= lam -> multipliers num mx mults grid ->
    (exists x, (forall i, (i < assets w)%nat -> 0 <= x i) /\ sumn (assets w) x = 1 /\
       (forall i, (i < assets w)%nat -> 0 <= mv (assets w) (OptModel.symmetrise cov) x i) /\ allowed (effective c arg) (assets w) x) ->
    exists f meta, relaxed_risk_parity_frontier E w num mx lam mults inc rb arg k = Ok (f, meta).
Proof.
  intros E w c arg k num mx lam mults inc rb grid bud mu cov HE H1 H2 HC HF Hwf Hm Hp Hb Hl Hg Hx.
  exact (rrp_frontier_answers_l E w c arg k HC HF Hwf num mx lam mults inc rb grid bud mu cov H1 H2 Hm Hp Hb Hl Hg Hx).
Qed.
Print Assumptions relaxed_risk_parity_frontier_answers.

(** * C66: minimum CVaR at a return target *)
Theorem min_cvar_at_return_optimal :
  forall E sim w c arg k target alpha p, exact_env E -> constructed w c -> in_force c arg (assets w) -> pc_nonneg w k ->
    min_cvar_at_return E sim w target alpha arg k = Ok p ->
    let N := assets w in let x := wts (p_weights p) in
    0 < alpha < 1 /\ List.length (p_weights p) = N /\ p_names p = d_names (w_dist w) /\
    exists T X q mu v, scenario_data sim w T X q /\ prob_vec T q /\
      let F y := allowed (effective c arg) N y /\ target <= dot N (scenario_mean T X q) y in
      F x /\ cvar_of N T X q alpha x v /\ p_risk p = Rabs v /\ p_return p = dot N mu x /\
      (forall y v', F y -> cvar_of N T X q alpha y v' -> v + turnover_cost N (iw_of w k) (pc_of w k) x <= v' + turnover_cost N (iw_of w k) (pc_of w k) y) /\
      match d_mu (w_dist w) with
      | None => forall i, mu i = scenario_mean T X q i
      | Some m => exists cov, mu = fst (in_reports w (as_vec m) cov) /\ (w_log w = true -> moments w (as_vec m) cov)
      end.
Proof. exact min_cvar_l. Qed.
Print Assumptions min_cvar_at_return_optimal.

(** * C67: frontiers traced by the wrapper *)
Theorem variance_frontier_efficient :
  forall E w c arg k num f mu cov, exact_env E -> complete_qp (e_qp E) -> constructed w c -> in_force c arg (assets w) ->
    moments w mu cov -> (forall kk l, k = Some kk -> k_mic kk = Some l -> List.length l = assets w) ->
    let N := assets w in
    let F y := allowed (effective c arg) N y in
    let cost := mv_cost N cov (iw_of w k) (mic_of w k) in
    attained F N mu cost ->
    variance_frontier E w num arg k = Ok f ->
    f_n f = N /\ f_names f = d_names (w_dist w) /\ f_measure f = "Volatility"%string /\
    describes f (dot N (fst (in_reports w mu cov))) (vol N (snd (in_reports w mu cov))) /\
    (forall lab v, In (lab, v) (f_alt f) -> lab = "CVaR (95%)"%string /\ cvar95_column w (f_cols f) v) /\
    exists mr, is_max F (dot N mu) mr /\ minimises F cost (wts (nth 0 (f_cols f) [])) /\
      ((frontier_collapses num (dot N mu (wts (nth 0 (f_cols f) []))) mr /\ List.length (f_cols f) = 1%nat) \/
       (efficient_frontier F cost (dot N mu) mr (Z.to_nat num) (map wts (f_cols f)) /\
        (psd N cov -> (forall l x, mic_of w k = Some l -> In x l -> 0 <= x) -> convex_frontier cost (map wts (f_cols f))))).
Proof. exact variance_frontier_l. Qed.
Print Assumptions variance_frontier_efficient.

Theorem wrapper_cvar_frontier_efficient :
  forall E sim lab raw w c arg k num alpha enf f, exact_env E -> constructed w c -> in_force c arg (assets w) -> pc_nonneg w k ->
    cvar_frontier_w E sim lab raw w num alpha enf arg k = Ok f ->
    let N := assets w in
    let F y := allowed (effective c arg) N y in
    0 < alpha < 1 /\ f_n f = N /\ f_names f = d_names (w_dist w) /\ f_measure f = lab alpha /\
    exists T X q mu cost mr cols, scenario_data sim w T X q /\ prob_vec T q /\ cvar_cost N T X q alpha (iw_of w k) (pc_of w k) cost /\
      f_ret f = map (fun l => dot N mu (wts l)) (f_cols f) /\ nondecreasing (f_ret f) /\
      Permutation (f_cols f) cols /\
      is_max F (dot N (scenario_mean T X q)) mr /\ minimises F cost (wts (nth 0 cols [])) /\
      ((frontier_collapses num (dot N (scenario_mean T X q) (wts (nth 0 cols []))) mr /\ List.length cols = 1%nat) \/
       (efficient_frontier F cost (dot N (scenario_mean T X q)) mr (Z.to_nat num) (map wts cols) /\ convex_frontier cost (map wts cols))) /\
      (exists risks, In (raw alpha, risks) (f_alt f) /\ (enf = false -> f_risk f = risks) /\ (enf = true -> nondecreasing (f_risk f)) /\
         Forall2 (fun l r => exists v, cvar_of N T X q alpha (wts l) v /\ r = Rabs v) (f_cols f) risks) /\
      match d_mu (w_dist w) with
      | None => forall i, mu i = scenario_mean T X q i
      | Some m => exists cov, mu = fst (in_reports w (as_vec m) cov) /\ (w_log w = true -> moments w (as_vec m) cov)
      end.
Proof. exact cvar_frontier_w_l. Qed.
Print Assumptions wrapper_cvar_frontier_efficient.

(** * C68: robust frontier *)
Theorem robust_lambda_frontier_optimal :
  forall E w c arg k num mx lams rc f lam' mu cov, exact_env E -> constructed w c -> in_force c arg (assets w) -> moments w mu cov ->
    robust_lambda_frontier E w num mx lams rc arg k = Ok (f, lam') ->
    let N := assets w in let F y := allowed (effective c arg) N y in
    f_n f = N /\ f_names f = d_names (w_dist w) /\ f_measure f = robust_measure /\
    List.length lam' = List.length (f_cols f) /\ List.length (f_risk f) = List.length (f_cols f) /\ nondecreasing (f_risk f) /\
    f_ret f = map (fun l => dot N (fst (in_reports w mu cov)) (wts l)) (f_cols f) /\
    (exists grid, penalties num mx lams grid /\ Permutation lam' grid) /\
    (exists L, root_of N (uncertainty w cov) L /\
      (forall i, (i < List.length lam')%nat ->
        let x := wts (nth i (f_cols f) []) in
        0 <= nth i lam' 0 /\ minimises F (fun y => - dot N mu y + nth i lam' 0 * norm2 N (mv N L y)) x /\
        norm2 N (mv N L x) <= nth i (f_risk f) 0 /\ (0 < nth i lam' 0 -> nth i (f_risk f) 0 = norm2 N (mv N L x))) /\
      (forall i j, (i <= j < List.length lam')%nat ->
        let x := wts (nth i (f_cols f) []) in let y := wts (nth j (f_cols f) []) in
        dot N mu x <= dot N mu y /\ (norm2 N (mv N L x) < norm2 N (mv N L y) -> nth j lam' 0 <= nth i lam' 0))) /\
    (forall lab v, In (lab, v) (f_alt f) -> lab = "Volatility"%string \/ (lab = "CVaR (95%)"%string /\ cvar95_column w (f_cols f) v)) /\
    (rc = None -> w_unc w <> None -> lookup "Volatility" (f_alt f) = Some (map (fun l => vol N cov (wts l)) (f_cols f))).
Proof. exact robust_frontier_l. Qed.
Print Assumptions robust_lambda_frontier_optimal.

(** The penalty grid is accepted exactly when there is one. *)
Theorem penalty_grid_accepts : forall num mx lams grid, lambda_grid num mx lams = Ok grid <-> penalties num mx lams grid.
Proof. exact lambda_grid_iff. Qed.
Print Assumptions penalty_grid_accepts.

(** * C69: robust portfolio under a risk cap *)
Theorem robust_gamma_portfolio_optimal :
  forall E w c arg k gm gs p mu cov, exact_env E -> constructed w c -> in_force c arg (assets w) -> moments w mu cov ->
    solve_robust_gamma E w gm gs arg k = Ok p ->
    let N := assets w in let F y := allowed (effective c arg) N y in let x := wts (p_weights p) in
    0 <= gm /\ 0 <= gs /\ List.length (p_weights p) = N /\ p_names p = d_names (w_dist w) /\ p_return p = dot N mu x /\
    exists L, root_of N (uncertainty w cov) L /\
      (norm2 N (mv N L x)) ^ 2 <= p_risk p <= gs /\
      minimises (fun y => F y /\ norm2 N (mv N L y) <= sqrt gs) (fun y => - dot N mu y + gm * norm2 N (mv N L y)) x.
Proof. exact gamma_l. Qed.
Print Assumptions robust_gamma_portfolio_optimal.

(** * C32: the fallback of relaxed risk parity *)
(** Targets are tried in the order [attempt t lower 0, 1, ..., 7]; the first solve that does not fail with
    RuntimeError decides, and if all eight fail the result is the solve without target, flagged. *)
Theorem relaxed_fallback :
  forall solve t lower,
    (exists i, (i < 8)%nat /\ (forall j, (j < i)%nat -> failed (solve (Some (attempt t lower j)) (Some lower))) /\
       ~ failed (solve (Some (attempt t lower i)) (Some lower)) /\
       solve_relaxed solve (Some t) lower = let* r := solve (Some (attempt t lower i)) (Some lower) in Ok (r, false)) \/
    ((forall j, (j < 8)%nat -> failed (solve (Some (attempt t lower j)) (Some lower))) /\
     solve_relaxed solve (Some t) lower = let* r := solve None None in Ok (r, true)).
Proof. exact solve_relaxed_spec. Qed.
Print Assumptions relaxed_fallback.

(** At most nine solves matter. *)
Theorem relaxed_at_most_nine_solves :
  forall solve solve' t lower,
    (forall i, (i < 8)%nat -> solve (Some (attempt t lower i)) (Some lower) = solve' (Some (attempt t lower i)) (Some lower)) ->
    solve None None = solve' None None -> solve_relaxed solve (Some t) lower = solve_relaxed solve' (Some t) lower.
Proof. exact relaxed_ext. Qed.
Print Assumptions relaxed_at_most_nine_solves.

(** The targets tried never exceed the larger of request and floor, shrink towards the floor by at least
    half of the remaining distance every time, and never undershoot it. *)
Theorem relaxed_targets_shrink :
  forall t lower k,
    attempt t lower k <= Rmax t lower /\
    (lower <= t -> lower <= attempt t lower (S k) <= attempt t lower k /\ attempt t lower k - lower <= (t - lower) / 2 ^ k) /\
    (t <= lower -> attempt t lower (S k) = lower).
Proof.
  intros t lower k. split; [apply attempt_le|]. split; [|apply attempt_below].
  intros H. split; [apply attempt_between; exact H|apply attempt_halves; exact H].
Qed.
Print Assumptions relaxed_targets_shrink.

(** * C70: relaxed risk parity portfolio *)
Theorem relaxed_risk_parity_result :
  forall E w c arg k lam mlt target rb p g mu cov, exact_env E -> constructed w c -> in_force c arg (assets w) -> moments w mu cov ->
    relaxed_risk_parity E w lam mlt target rb arg k = Ok (p, g) ->
    let N := assets w in let F y := allowed (effective c arg) N y in let x := wts (p_weights p) in
    let rmu := fst (in_reports w mu cov) in let rcov := snd (in_reports w mu cov) in
    let lower := Rmax (g_rp_return g) 0 in
    List.length (p_weights p) = N /\ p_names p = d_names (w_dist w) /\ p_return p = dot N rmu x /\ p_risk p = sqrt (quad N rcov x) /\ g_variance g = quad N rcov x /\
    0 <= lam /\
    (exists marg, risk_parity_solution N mu cov F rb 0 None (wts (g_rp_weights g)) marg) /\ g_rp_return g = dot N rmu (wts (g_rp_weights g)) /\
    g_requested g = match target, mlt with Some t, _ => Some t | None, Some q => Some (q * lower) | None, None => None end /\
    (target = None -> match mlt with None => lam = 0 /\ p_weights p = g_rp_weights g | Some q => 0 <= q end) /\
    (exists marg, risk_parity_solution N mu cov F rb lam (g_target g) x marg /\ g_contrib g = map (fun i => x i * marg i) (seq 0 N)) /\
    (g_warning g = true -> g_requested g <> None /\ g_target g = None) /\
    (forall t, g_warning g = false -> g_requested g = Some t ->
       exists cl, g_target g = Some cl /\ cl <= dot N mu x /\ lower <= cl <= Rmax t lower) /\
    (g_clipped g = false -> forall t cl, g_requested g = Some t -> g_target g = Some cl -> Rabs (cl - t) <= 1 / 10000000000 + 1 / 100000000 * Rabs t) /\
    (w_log w = false -> 0 < quad N rcov x -> rsum (g_pct g) = 100).
Proof. exact rrp_portfolio_l. Qed.
Print Assumptions relaxed_risk_parity_result.

(** An explicit target below the floor is not honoured: the effective target is the floor itself. *)
Theorem relaxed_low_target_refuted :
  forall E w c arg k lam mlt t rb p g mu cov, exact_env E -> constructed w c -> in_force c arg (assets w) -> moments w mu cov ->
    relaxed_risk_parity E w lam mlt (Some t) rb arg k = Ok (p, g) -> t < Rmax (g_rp_return g) 0 -> g_warning g = false ->
    g_target g = Some (Rmax (g_rp_return g) 0).
Proof.
  intros E w c arg k lam mlt t rb p g mu cov HE HC HF Hm H Hlt Hw.
  destruct (rrp_portfolio_l E w c arg k lam mlt (Some t) rb p g mu cov HE HC HF Hm H) as (_ & _ & _ & _ & _ & _ & _ & _ & Hreq & _ & _ & _ & Ht & _).
  destruct (Ht t Hw Hreq) as (cl & -> & _ & L1 & L2). f_equal. rewrite (Rmax_right t) in L2 by lra. lra.
Qed.
Print Assumptions relaxed_low_target_refuted.

(** * C71: relaxed risk parity frontier *)
Theorem relaxed_risk_parity_frontier_result :
  forall E w c arg k num mx lam mults inc rb f meta mu cov, exact_env E -> constructed w c -> in_force c arg (assets w) -> moments w mu cov ->
    relaxed_risk_parity_frontier E w num mx lam mults inc rb arg k = Ok (f, meta) ->
    let N := assets w in let F y := allowed (effective c arg) N y in
    let rmu := fst (in_reports w mu cov) in let rcov := snd (in_reports w mu cov) in
    0 <= lam /\ f_n f = N /\ f_names f = d_names (w_dist w) /\ f_measure f = "Volatility (Relaxed RP)"%string /\
    describes f (dot N rmu) (fun x => sqrt (Rmax (quad N rcov x) 0)) /\
    (forall lab v, In (lab, v) (f_alt f) -> lab = "CVaR (95%)"%string /\ cvar95_column w (f_cols f) v) /\
    List.length meta = List.length (f_cols f) /\
    exists anchor grid marg, risk_parity_solution N mu cov F rb 0 None (wts anchor) marg /\ multipliers num mx mults grid /\
      map t_mult meta = (if inc then [None] else []) ++ map Some grid /\
      let lower := Rmax (dot N rmu (wts anchor)) 0 in
      forall i, (i < List.length meta)%nat ->
        let e := nth i meta (mkMeta None None None false) in let x := wts (nth i (f_cols f) []) in
        match t_mult e with
        | None => nth i (f_cols f) [] = anchor /\ t_requested e = None /\ t_effective e = None /\ t_warning e = false
        | Some q => t_requested e = Some (q * lower) /\
                    (exists marg, risk_parity_solution N mu cov F rb lam (t_effective e) x marg) /\
                    (t_warning e = true -> t_effective e = None) /\
                    (t_warning e = false -> exists cl, t_effective e = Some cl /\ cl <= dot N mu x /\ lower <= cl <= Rmax (q * lower) lower)
        end.
Proof. exact rrp_frontier_l. Qed.
Print Assumptions relaxed_risk_parity_frontier_result.

Theorem multiplier_grid_accepts : forall num mx mults grid, multiplier_grid num mx mults = Ok grid <-> multipliers num mx mults grid.
Proof. exact multiplier_grid_iff. Qed.
Print Assumptions multiplier_grid_accepts.

(** * C72: the factories *)
(** [from_moments] stores the mean as given and the covariance with, at most, a multiple of the identity
    added to make it positive semidefinite; with [return_type="log"] it stores the lognormal moments. *)
Theorem from_moments_stores :
  forall eig log lmu kmu mu lcov r cc cov arg k lo tot bds w, correct_eig eig ->
    from_moments eig log lmu kmu mu lcov r cc cov arg k lo tot bds = Ok w ->
    constructed w (asked arg lo tot bds) /\ cc = r /\ assets w = r /\ (0 < r)%nat /\ (kmu = r \/ (log = true /\ kmu = 1%nat)) /\
    w_log w = false /\ w_unc w = None /\ d_scen (w_dist w) = None /\
    (w_iw w, w_mic w, w_pc w) = match k with Some k => (Some (k_iw k), k_mic k, k_pc k) | None => (None, None, None) end /\
    exists m C P kap, moments w m C /\ ensure_psd eig r cov jit = Ok P /\ 0 <= kap /\
      (forall i j, P i j = MomModel.symmetrise cov i j + kap * MomModel.eye i j) /\ psd_tol r P jit /\ (psd_tol r (MomModel.symmetrise cov) jit -> kap = 0) /\
      let mu' := if Nat.eqb kmu r then mu else fun _ => mu 0%nat in
      (log = false -> (forall i, m i = mu i) /\ forall i j, (i < r)%nat -> (j < r)%nat -> C i j = P i j) /\
      (log = true -> (forall i, m i = exp (mu' i + P i i / 2) - 1) /\
         forall i j, (i < r)%nat -> (j < r)%nat -> C i j = (1 + m i) * (1 + m j) * (exp (P i j) - 1)).
Proof. exact from_moments_l. Qed.
Print Assumptions from_moments_stores.

(** It accepts one mean per asset, a square covariance, agreeing labels, valid constraints and costs of
    the right length -- and, with log returns, also a single mean, which it repeats for every asset. *)
Theorem from_moments_accepts :
  forall eig log lmu kmu mu lcov n cov arg k lo tot bds, correct_eig eig -> (0 < n)%nat ->
    (exists nm, List.length nm = n /\ (forall l, lmu = Some l -> l = nm) /\ (forall a b, lcov = Some (a, b) -> a = nm /\ b = nm)) ->
    (kmu = n \/ (log = true /\ kmu = 1%nat)) -> costs_fit n k -> ConsSpec.well_formed (asked arg lo tot bds) (Z.of_nat n) ->
    exists w, from_moments eig log lmu kmu mu lcov n n cov arg k lo tot bds = Ok w.
Proof. exact from_moments_total. Qed.
Print Assumptions from_moments_accepts.

(** [from_robust_posterior] scales mean and covariance by the horizon, the uncertainty of the mean by its
    square, and marks the moments as log returns. *)
Theorem from_robust_posterior_stores :
  forall eig names n mu sigma s_mu h arg k lo tot bds w, correct_eig eig ->
    from_robust_posterior eig names n mu sigma s_mu h arg k lo tot bds = Ok w ->
    constructed w (asked arg lo tot bds) /\ assets w = n /\ w_log w = true /\ d_scen (w_dist w) = None /\
    exists m C kap, moments w m C /\ 0 <= kap /\ (forall i, m i = h * mu i) /\
      (forall i j, (i < n)%nat -> (j < n)%nat -> C i j = MomModel.symmetrise (fun i j => h * sigma i j) i j + kap * MomModel.eye i j) /\
      (psd_tol n (MomModel.symmetrise (fun i j => h * sigma i j)) jit -> kap = 0) /\
      (forall i j, uncertainty w C i j = h ^ 2 * s_mu i j).
Proof. exact from_posterior_l. Qed.
Print Assumptions from_robust_posterior_stores.

(** [from_scenarios] keeps the scenarios -- exponentiated when they are log returns -- and derives
    weights, mean and covariance from them. *)
Theorem from_scenarios_stores :
  forall log labels X probs arg k lo tot bds w, from_scenarios log labels X probs arg k lo tot bds = Ok w ->
    constructed w (asked arg lo tot bds) /\ w_log w = false /\ w_unc w = None /\
    exists T Y q, has_scenarios w T Y q /\ prob_vec T q /\ normalised T probs q /\ nd_shape X = [T; assets w] /\
      (forall t i, (t < T)%nat -> (i < assets w)%nat -> exists x, nd_at X (t * assets w + i)%nat = x /\
         Y t i = val (if log then p_expm1 x else x)) /\
      exists m C, moments w m C /\ (forall i, (i < assets w)%nat -> m i = mean_of T q Y i) /\
        forall i j, (i < assets w)%nat -> (j < assets w)%nat -> C i j = cov_of T q Y i j.
Proof.
  intros log labels X probs arg k lo tot bds w H. unfold from_scenarios in H. apply bind_ok in H as (d & Hd & H).
  destruct (make_wrapper_good d arg k lo tot bds w (make_dist_valid _ d Hd) H) as (_ & Dw & Lw & Uw).
  destruct (make_dist_values _ d Hd) as (V1 & _ & _ & _ & V5). destruct (V5 _ _ eq_refl) as (T & p & q & ET & Es & Ep & Rp & Hn & Hm & Hc).
  destruct (Hm eq_refl) as (m & Em & Rm). destruct (Hc eq_refl) as (C & Ec & Sc & Rc).
  pose proof (make_dist_valid _ d Hd) as V. pose proof (vd_scen d V) as Vs. rewrite V1, Ep, ET in Vs. cbn in Vs. destruct Vs as (HT & _ & _ & _ & q' & Rq' & Pq').
  assert (Eq : forall t, (t < T)%nat -> q' t = as_vec p t /\ q t = as_vec p t).
  { intros t Ht. split; symmetry; [apply (as_vec_real p [T] q' t Rq') | apply (as_vec_real p [T] q t Rp)]; unfold nd_size; rewrite (proj1 Rp); cbn; lia. }
  assert (Sx : nd_shape X = [T; d_N d]) by (destruct log; exact Es).
  split; [exact (by_init _ d arg k lo tot bds w Hd H)|]. split; [exact Lw|]. split; [exact Uw|].
  set (Y := as_mat (d_N d) (if log then compound_to_simple X else X)) in *.
  exists T, Y, (as_vec p). unfold has_scenarios, moments, assets. rewrite Dw. split.
  { eexists _, p. split; [exact V1|]. split; [exact Ep|]. cbn. destruct log; cbn; rewrite Sx; repeat split. }
  split; [apply (prob_vec_ext T q'); [intros; apply Eq; assumption|exact Pq']|]. split.
  { unfold normalised in *. cbn in Hn. destruct probs; intros t Ht; rewrite <- (proj2 (Eq t Ht)); apply Hn; exact Ht. }
  split; [exact Sx|]. split.
  { intros t i _ _. eexists. split; [reflexivity|]. unfold Y. destruct log; reflexivity. }
  assert (Mq : forall i, mean_of T q Y i = mean_of T (as_vec p) Y i) by (intros i; unfold mean_of; apply sumn_ext; intros t Ht; rewrite (proj2 (Eq t Ht)); reflexivity).
  eexists _, _. split; [eexists m, C; repeat split; [exact Em|exact Ec]|]. split.
  - intros i Hi. rewrite (as_vec_real m [d_N d] _ i Rm) by (unfold nd_size; rewrite (proj1 Rm); cbn; lia). apply Mq.
  - intros i j Hi Hj. unfold as_mat. change (i * d_N d + j)%nat with (pos (d_N d) i j). rewrite Rc by exact Hj. cbn [val]. unfold cov_of. fold Y. apply sumn_ext. intros t Ht. rewrite (proj2 (Eq t Ht)), !Mq. reflexivity.
Qed.
Print Assumptions from_scenarios_stores.

(** * C73: transaction costs *)
(** The constructor raises ValueError unless every cost vector has one entry per asset. *)
Theorem constructor_checks_costs :
  forall d arg k lo tot bds, ConsSpec.well_formed (asked arg lo tot bds) (Z.of_nat (d_N d)) ->
    (costs_fit (d_N d) k -> exists w, make_wrapper d arg k lo tot bds = Ok w /\
       (w_iw w, w_mic w, w_pc w) = match k with Some k => (Some (k_iw k), k_mic k, k_pc k) | None => (None, None, None) end) /\
    (~ costs_fit (d_N d) k -> make_wrapper d arg k lo tot bds = Err ValueError).
Proof.
  intros d arg k lo tot bds Hw. split.
  - intros Hk. destruct (build_wrapper d arg k lo tot bds Hk Hw) as [w E]. exists w. split; [exact E|]. exact (make_wrapper_costs _ _ _ _ _ _ _ E).
  - intros Hn. unfold make_wrapper. destruct (proj2 (to_matrices_succeeds _ _) Hw) as [[m ws] ->]. cbn [bind]. destruct k as [k|]; [|exfalso; apply Hn; intros kk E; discriminate].
    unfold apply_costs. destruct (Nat.eqb (List.length (k_iw k)) (d_N d)) eqn:E1; [|reflexivity].
    destruct (has_len (d_N d) (k_mic k)) eqn:E2; [|reflexivity]. destruct (has_len (d_N d) (k_pc k)) eqn:E3; [|reflexivity].
    exfalso. apply Hn. intros kk E. injection E as <-. split; [apply Nat.eqb_eq; exact E1|]. split; apply has_len_ok; assumption.
Qed.
Print Assumptions constructor_checks_costs.

(** * Examples and refutations *)

(** Holdings adding up to [s], short positions allowed. *)
Definition total_only (s : R) : constraints := asked CNone false (Some (Num (Fin s))) None.
Lemma total_well_formed s n : (0 < n)%nat -> ConsSpec.well_formed (total_only s) (Z.of_nat n).
Proof.
  intros Hn. unfold ConsSpec.well_formed, total_only; cbn. split; [lia|]. split; [intros x E; injection E as <-; exists s; reflexivity|].
  split; [exact I|]. split; [|split; [|split]]; intros ? [].
Qed.
Lemma allowed_total s n x : allowed (total_only s) n x <-> sumn n x = s.
Proof.
  unfold allowed, satisfies, total_only, total_hold; cbn. pose proof (RBase.rsum_seq x n 0) as Es. cbn [Nat.add] in Es. unfold to_list. rewrite Es.
  change (sumn n (fun i => x i)) with (sumn n x). split.
  - intros (_ & _ & _ & _ & _ & H2 & _). exact H2.
  - intros H2. split; [discriminate|]. split; [exact I|]. split; [intros ? []|]. split; [intros ? []|]. split; [intros ? []|]. split; [exact H2|intros ? []].
Qed.
Lemma total_in_force s arg n : s <> 0 -> in_force (total_only s) arg n.
Proof.
  intros Hs _ V. specialize (V (to_list n (fun _ => 0)) (to_list_length n _)). apply allowed_total in V.
  rewrite sumn_0 in V by (intros; reflexivity). lra.
Qed.
Lemma total1_bounded s : bounded 1 (allowed (total_only s) 1).
Proof. exists (Rabs s). intros x Hx i Hi. apply allowed_total in Hx. cbn in Hx. assert (i = 0)%nat by lia. subst. right. f_equal. lra. Qed.

(** A posterior for one asset, held short: the stored (log) expected return of the weights meets the
    target of 1, the return reported is 0. *)
Theorem min_variance_log_short_target_refuted :
  exists w mu cov p, constructed w (total_only (-1)) /\ in_force (total_only (-1)) CNone (assets w) /\ moments w mu cov /\ w_log w = true /\
    min_variance_at_return best_env w 1 CNone None = Ok p /\ p_return p < 1.
Proof.
  pose proof rayleigh_correct as HE.
  destruct (from_moments_total rayleigh false None 1 (fun i => -1 * 1) None 1 (fun i j => 2 * 1) CNone None false (Some (Num (Fin (-1)))) None HE (le_n 1)) as [w0 E0];
    [exists [EmptyString]; repeat split; discriminate|left; reflexivity|intros kk E; discriminate|apply total_well_formed; lia|].
  assert (E1 : exists w, from_robust_posterior rayleigh None 1 (fun _ => -1) (fun _ _ => 2) (fun _ _ => 1) 1 CNone None false (Some (Num (Fin (-1)))) None = Ok w).
  { unfold from_robust_posterior. cbn [option_map]. rewrite E0. cbn [bind]. eauto. }
  destruct E1 as [w Ew]. destruct (from_robust_posterior_stores _ _ _ _ _ _ _ _ _ _ _ _ _ HE Ew) as (HC & HN & HL & _ & m & C & kap & Hm & _ & Mm & MC & Hk & _).
  assert (K : kap = 0).
  { apply Hk. intros x. unfold quad, dot. cbn. unfold MomModel.symmetrise, jit. pose proof (Rle_0_sqr (x 0%nat)) as Q. unfold Rsqr in Q. nra. }
  assert (HF : in_force (total_only (-1)) CNone (assets w)) by (apply total_in_force; lra).
  assert (Hd : forall y, dot (assets w) m y = - y 0%nat) by (intros y; rewrite HN; unfold dot; cbn; rewrite Mm; lra).
  destruct (min_variance_total best_env w (total_only (-1)) CNone None 1 m C best_env_exact best_qp_complete HC HF Hm) as [p Ep].
  - intros kk E. discriminate.
  - rewrite HN. apply total_well_formed. lia.
  - cbn [effective]. rewrite HN. apply total1_bounded.
  - exists (fun _ => -1). cbn [effective]. split; [rewrite HN; apply allowed_total; cbn; lra|]. rewrite Hd. lra.
  - exists w, m, C, p. split; [exact HC|]. split; [exact HF|]. split; [exact Hm|]. split; [exact HL|]. split; [exact Ep|].
    destruct (min_variance_at_return_optimal best_env w _ CNone None 1 p m C best_env_exact HC HF Hm) as (_ & _ & -> & _ & r & _ & [[Ha _] _] & _);
      [intros kk l E; discriminate|exact Ep|].
    cbn [effective] in Ha. rewrite HN in *. apply allowed_total in Ha. cbn in Ha.
    unfold in_reports. rewrite HL. unfold dot. cbn. rewrite Mm, (MC 0%nat 0%nat) by lia. rewrite K. unfold MomModel.symmetrise.
    match goal with |- context [exp ?e] => replace e with 0 by field end. rewrite exp_0. lra.
Qed.
Print Assumptions min_variance_log_short_target_refuted.

(** The robust portfolio under a risk cap reports the log expected return of a log wrapper, not the
    simple one: here 0 instead of e^(1/2) - 1. *)
Theorem robust_gamma_reports_log_return_refuted :
  exists w mu cov p, constructed w (total_only 1) /\ moments w mu cov /\ w_log w = true /\
    solve_robust_gamma best_env w 0 4 CNone None = Ok p /\ p_return p = 0 /\
    dot (assets w) (fst (in_reports w mu cov)) (wts (p_weights p)) = exp (1 / 2) - 1.
Proof.
  pose proof rayleigh_correct as HE.
  destruct (from_moments_total rayleigh false None 1 (fun i => 0 * 1) None 1 (fun i j => 1 * 1) CNone None false (Some (Num (Fin 1))) None HE (le_n 1)) as [w0 E0];
    [exists [EmptyString]; repeat split; discriminate|left; reflexivity|intros kk E; discriminate|apply total_well_formed; lia|].
  assert (E1 : exists w, from_robust_posterior rayleigh None 1 (fun _ => 0) (fun _ _ => 1) (fun _ _ => 1) 1 CNone None false (Some (Num (Fin 1))) None = Ok w).
  { unfold from_robust_posterior. cbn [option_map]. rewrite E0. cbn [bind]. eauto. }
  destruct E1 as [w Ew]. destruct (from_robust_posterior_stores _ _ _ _ _ _ _ _ _ _ _ _ _ HE Ew) as (HC & HN & HL & _ & m & C & kap & Hm & _ & Mm & MC & Hk & HU).
  assert (K : kap = 0).
  { apply Hk. intros x. unfold quad, dot. cbn. unfold MomModel.symmetrise, jit. pose proof (Rle_0_sqr (x 0%nat)) as Q. unfold Rsqr in Q. nra. }
  assert (HF : in_force (total_only 1) CNone (assets w)) by (apply total_in_force; lra).
  assert (Hd : forall y, dot (assets w) m y = 0) by (intros y; rewrite HN; unfold dot; cbn; rewrite Mm; lra).
  destruct (robust_gamma_portfolio_answers best_env w (total_only 1) CNone None 0 4 m C best_env_exact HC HF) as (L & (j & Hj & HLc) & A1 & _); auto using best_cp_complete, best_chol_complete; try lra.
  - rewrite HN. apply total_well_formed. lia.
  - intros x. rewrite HN. unfold quad. cbn. rewrite HU. pose proof (Rle_0_sqr (x 0%nat)) as Q. unfold Rsqr in Q. nra.
  - destruct w as [dd mm iw mic pc lg un]. left. cbn. unfold from_robust_posterior in Ew. cbn [option_map] in Ew. rewrite E0 in Ew. cbn [bind] in Ew. injection Ew as _ _ Hiw _ _ _ _.
    destruct (from_moments_l _ _ _ _ _ _ _ _ _ _ _ _ _ _ _ HE E0) as (_ & _ & _ & _ & _ & _ & _ & _ & Hk0 & _). injection Hk0 as Hk0 _ _. congruence.
  - cbn [effective]. rewrite HN. apply total1_bounded.
  - destruct A1 as [p Ep].
    + exists (fun _ => 1). cbn [effective]. split; [rewrite HN; apply allowed_total; cbn; lra|].
      rewrite HN in *. destruct HLc as (_ & _ & HLe). specialize (HLe 0%nat 0%nat (le_n 1) (le_n 1)). unfold mmul, transpose in HLe. cbn in HLe.
      unfold plus_jitter, OptModel.symmetrise in HLe. rewrite !HU in HLe. unfold norm2. replace 4 with (2 * 2) by ring. rewrite sqrt_square by lra.
      replace 2 with (sqrt (2 * 2)) by (apply sqrt_square; lra). apply sqrt_le_1_alt. unfold mv, dot. cbn. cbn in HLe. nra.
    + exists w, m, C, p. split; [exact HC|]. split; [exact Hm|]. split; [exact HL|]. split; [exact Ep|].
      destruct (robust_gamma_portfolio_optimal best_env w _ CNone None 0 4 p m C best_env_exact HC HF Hm Ep) as (_ & _ & _ & _ & Hr & L' & _ & _ & [[Ha _] _]).
      split; [rewrite Hr; apply Hd|]. cbn [effective] in Ha. rewrite HN in *. apply allowed_total in Ha. cbn in Ha.
      unfold in_reports. rewrite HL. unfold dot. cbn. rewrite Mm, (MC 0%nat 0%nat) by lia. rewrite K. unfold MomModel.symmetrise.
      match goal with |- context [exp ?e] => match e with 1 / 2 => fail 1 | _ => replace e with (1 / 2) by field end end. replace (wts (p_weights p) 0%nat) with 1 by lra. ring.
Qed.
Print Assumptions robust_gamma_reports_log_return_refuted.

(** [min_cvar_at_return] enforces the target on the scenario mean but reports the return with the expected
    returns supplied to the distribution: one asset, one scenario with return 1, supplied mean 0. *)
Theorem min_cvar_reported_return_refuted :
  exists w p sim, constructed w (total_only 1) /\ w_log w = false /\
    min_cvar_at_return best_env sim w (1 / 2) (1 / 2) CNone None = Ok p /\ p_return p = 0.
Proof.
  destruct (build_scenarios 1 1 (fun _ _ => 1) (Some (fun _ => 0)) CNone None false (Some (Num (Fin 1))) None) as (w & q & HC & HN & HL & _ & Hco & HS & Hq & Hmu);
    [lia|lia|intros kk E; discriminate|apply (total_well_formed 1 1); lia|].
  destruct (Hmu _ eq_refl) as (am & Eam & Vam). change (asked CNone false (Some (Num (Fin 1))) None) with (total_only 1) in HC.
  assert (HF : in_force (total_only 1) CNone (assets w)) by (apply total_in_force; lra).
  assert (Hpc : pc_nonneg w None) by (intros l E; cbn in E; injection Hco as _ _ Hco; rewrite Hco in E; discriminate).
  set (sim := fun _ : nat => fun _ : nat => 0).
  destruct HS as (a & qq & Ea & Eq & ET & EX & Eqv).
  destruct (min_cvar_at_return_answers best_env w (total_only 1) CNone None sim (1 / 2) (1 / 2) best_env_exact best_cp_complete HC HF) as (T & X & q' & Hsd & Hpv & A1 & _).
  - intros kk E; discriminate.
  - rewrite HN. apply total_well_formed. lia.
  - left. congruence.
  - exact Hpc.
  - lra.
  - cbn [effective]. rewrite HN. apply total1_bounded.
  - destruct A1 as [p Ep].
    + exists (fun _ => 1). cbn [effective]. split; [rewrite HN; apply allowed_total; cbn; lra|].
      unfold scenario_data in Hsd. rewrite Ea in Hsd. destruct Hsd as (q2 & Eq2 & ET2 & EX2 & Ev2).
      rewrite HN in *. rewrite Eq in Eq2. injection Eq2 as <-. assert (ET1 : T = 1%nat) by congruence. subst T. rewrite EX2, <- EX.
      assert (Q0 : as_vec qq 0%nat = 1) by (rewrite <- Eqv; rewrite Hq by lia; cbn; lra).
      unfold scenario_mean, dot. rewrite Ev2, ?ET. cbn [sumn]. rewrite Q0. unfold as_mat, nd_rows. cbn. lra.
    + exists w, p, sim. split; [exact HC|]. split; [exact HL|]. split; [exact Ep|].
      destruct (min_cvar_at_return_optimal best_env sim w _ CNone None _ _ p best_env_exact HC HF Hpc Ep) as (_ & _ & _ & T2 & X2 & q2 & mu & v & _ & _ & _ & _ & _ & Hr & _ & Hm).
      rewrite Eam in Hm. destruct Hm as (cov & Hm & _). rewrite Hr, Hm. unfold in_reports. rewrite HL. cbn [fst]. rewrite Vam. unfold dot. apply sumn_0. intros. ring.
Qed.
Print Assumptions min_cvar_reported_return_refuted.

(** Costs passed to a call are not checked: a single initial weight and impact coefficient are accepted
    for two assets (and then penalise the deviation of the total weight, [mv_single_cost_broadcast_refuted]). *)
Theorem per_call_costs_unchecked_refuted :
  exists w p, constructed w default_constraints /\ assets w = 2%nat /\
    min_variance_at_return best_env w 0 CNone (Some (mkCosts [1] (Some [1]) None)) = Ok p.
Proof.
  destruct (build_moments 2 (fun _ => 0) id2 CNone None true (Some (Num (Fin 1))) None) as (w & cov & HC & HN & _ & _ & _ & _ & Hm & _);
    [lia|intros kk E; discriminate|apply default_well_formed; lia|].
  change (asked CNone true (Some (Num (Fin 1))) None) with default_constraints in HC.
  assert (HF : in_force default_constraints CNone (assets w)) by (apply default_in_force; lia).
  assert (Hwf : ConsSpec.well_formed (effective default_constraints CNone) (Z.of_nat (assets w))) by (rewrite HN; apply default_well_formed; lia).
  destruct (resolved w default_constraints CNone HC HF Hwf) as (m & Er & HFi & HB).
  assert (Hb : bounded (assets w) (constrained (assets w) (rows_G m) (rows_A m))) by (apply HB, default_bounded).
  set (P := fun i j => 2 * cov i j + 2 * 1). set (qv := fun i => zrow i - 2 * (1 * 1)).
  assert (Ex : exists x, mv_solve_target (e_qp best_env) (assets w) (fun _ => 0) P qv (rows_G m) (rows_A m) (Some 0) = Ok x).
  { unfold mv_solve_target. destruct (e_qp best_env _) as [x|] eqn:E; [eauto|]. exfalso. revert E. cbn [best_env e_qp].
    destruct (bounded_box _ _ Hb) as (B & _ & HBx).
    destruct (qp_attains (mv_qp (assets w) (fun _ => 0) P qv (rows_G m) (rows_A m) (Some 0)) B) as [x Hx].
    - exists (fun _ => 1 / 2). apply mv_feasible_iff. split; [apply HFi; cbn [effective]; apply allowed_default; rewrite HN; split; [intros; lra|cbn; lra]|].
      cbn. unfold dot. rewrite sumn_0 by (intros; ring). lra.
    - intros x Hx. apply mv_feasible_iff in Hx as [Hx _]. exact (HBx x Hx).
    - exact (best_qp_complete _ x Hx). }
  destruct Ex as [x Ex].
  exists w. eexists. split; [exact HC|]. split; [exact HN|].
  unfold min_variance_at_return. rewrite (require_ok w _ _ Hm). cbn [bind]. rewrite Er. cbn [bind resolve_costs k_iw k_mic k_pc]. fold (assets w).
  unfold mv_terms, quadratic_turnover, check_shapes. cbn [fst snd].
  assert (E2 : (List.length [1%R] =? assets w)%nat = false) by (rewrite HN; reflexivity). rewrite E2. cbn [List.length Nat.eqb bind nth guard].
  match goal with |- context [mv_solve_target ?a ?b ?cc ?d ?e ?f ?g ?h] => change (mv_solve_target a b cc d e f g h) with (mv_solve_target (e_qp best_env) (assets w) (fun _ => 0) P qv (rows_G m) (rows_A m) (Some 0)) end.
  rewrite Ex. cbn. reflexivity.
Qed.
Print Assumptions per_call_costs_unchecked_refuted.

(** Two uncorrelated assets with unit variance and expected returns 0 and 1, built with the default
    constraints: the hypotheses of the theorems above hold, and every method answers. *)
Example wrapper_case :
  exists w mu cov, constructed w default_constraints /\ in_force default_constraints CNone (assets w) /\ moments w mu cov /\ assets w = 2%nat /\
    exact_env best_env /\ costs_fit (assets w) None /\ pc_nonneg w None /\
    (exists p, min_variance_at_return best_env w (1 / 4) CNone None = Ok p /\ p_weights p = [1 / 2; 1 / 2] /\ p_return p = 1 / 2 /\ p_risk p = sqrt (1 / 2)) /\
    min_variance_at_return best_env w 2 CNone None = Err InfeasibleError /\
    (exists f, variance_frontier best_env w 5 CNone None = Ok f) /\
    (exists f, robust_lambda_frontier best_env w 3 1 None None CNone None = Ok f) /\
    (exists f, cvar_frontier_w best_env (fun _ _ => 0) (fun _ => "CVaR"%string) (fun _ => "raw"%string) w 5 (1 / 20) true CNone None = Ok f) /\
    (exists p g, relaxed_risk_parity best_env w (1 / 10) None (Some (3 / 4)) None CNone None = Ok (p, g)) /\
    (exists f meta, relaxed_risk_parity_frontier best_env w 4 2 (1 / 10) None true None CNone None = Ok (f, meta)).
Proof.
  destruct (build_moments 2 mean2 id2 CNone None true (Some (Num (Fin 1))) None) as (w & cov & HC & HN & HL & HU & _ & Hco & Hm & Hcov);
    [lia|intros kk E; discriminate|apply default_well_formed; lia|].
  change (asked CNone true (Some (Num (Fin 1))) None) with default_constraints in HC.
  assert (HF : in_force default_constraints CNone (assets w)) by (apply default_in_force; lia).
  assert (Hwf : ConsSpec.well_formed (effective default_constraints CNone) (Z.of_nat (assets w))) by (rewrite HN; apply default_well_formed; lia).
  assert (Hk : costs_fit (assets w) None) by (intros kk E; discriminate).
  assert (Hpc : pc_nonneg w None) by (intros l E; cbn in E; injection Hco as _ _ Hco; rewrite Hco in E; discriminate).
  assert (Hiw : iw_of w None = None) by (cbn; injection Hco as Hco _ _; exact Hco).
  assert (Hb : bounded (assets w) (allowed (effective default_constraints CNone) (assets w))) by apply default_bounded.
  assert (Hd : forall y, dot (assets w) mean2 y = y 1%nat) by (intros y; rewrite HN, dot2; unfold mean2, of_list; simpl; lra).
  assert (Ha : forall y, allowed (effective default_constraints CNone) (assets w) y <-> (0 <= y 0%nat /\ 0 <= y 1%nat) /\ y 0%nat + y 1%nat = 1).
  { intros y. cbn [effective]. rewrite allowed_default, HN. cbn. split; intros [H1 H2].
    - split; [split; apply H1; lia|lra].
    - split; [|lra]. intros i Hi. destruct i as [|[|i]]; [| |lia]; apply H1. }
  assert (Hq : forall y, quad (assets w) cov y = y 0%nat * y 0%nat + y 1%nat * y 1%nat).
  { intros y. rewrite HN, quad2. rewrite !Hcov by lia. unfold id2, delta. simpl. ring. }
  assert (Hps : psd (assets w) cov) by (intros y; rewrite Hq; nra).
  pose proof best_env_exact as HE.
  exists w, mean2, cov. split; [exact HC|]. split; [exact HF|]. split; [exact Hm|]. split; [exact HN|]. split; [exact HE|]. split; [exact Hk|]. split; [exact Hpc|].
  split; [|split; [|split; [|split; [|split; [|split]]]]].
  - destruct (min_variance_at_return_answers best_env w _ CNone None (1 / 4) mean2 cov HE best_qp_complete HC HF Hk Hwf Hm Hb) as [[p Ep] _].
    { exists (fun _ => 1 / 2). split; [apply Ha; lra|rewrite Hd; lra]. }
    exists p. split; [exact Ep|].
    destruct (min_variance_at_return_optimal best_env w _ CNone None (1 / 4) p mean2 cov HE HC HF Hm) as (Hl & _ & Hr & Hk2 & r & Hr0 & [[HA _] Ho] & _);
      [intros kk l E; discriminate|exact Ep|].
    rewrite HN in Hl. destruct (p_weights p) as [|a [|b [|z l]]]; try discriminate. apply Ha in HA. unfold wts in HA. simpl in HA.
    specialize (Ho (fun _ => 1 / 2)). unfold mv_cost in Ho. rewrite Hiw in Ho. rewrite !Hq in Ho.
    assert (Hh : allowed (effective default_constraints CNone) (assets w) (fun _ => 1 / 2) /\ 1 / 4 <= dot (assets w) mean2 (fun _ => 1 / 2)) by (split; [apply Ha; lra|rewrite Hd; lra]).
    assert (Ho' := Ho Hh). clear Ho Hh.
    rewrite !HN, !dot2 in Ho'. unfold wts in Ho'. simpl in Ho'.
    assert (Eb : b = 1 - a) by lra. subst b. assert (S0 : 0 <= (a - 1 / 2) * (a - 1 / 2)) by apply Rle_0_sqr.
    assert (S1 : r * ((a - 1 / 2) * (a - 1 / 2)) >= 0) by nra. assert (S2 : (a - 1 / 2) * (a - 1 / 2) = 0) by nra.
    apply Rmult_integral in S2. assert (Ea : a = 1 / 2) by lra. subst a. replace (1 - 1 / 2) with (1 / 2) in * by lra.
    split; [reflexivity|]. rewrite Hr, Hk2. unfold in_reports. rewrite HL. cbn [fst snd]. rewrite Hd, Hq. unfold wts. simpl. split; [reflexivity|f_equal; lra].
  - apply (min_variance_at_return_answers best_env w _ CNone None 2 mean2 cov HE best_qp_complete HC HF Hk Hwf Hm Hb).
    intros (y & Hy & Ht). apply Ha in Hy. rewrite Hd in Ht. lra.
  - apply (variance_frontier_answers best_env w _ CNone None 5 mean2 cov HE best_qp_complete best_cp_complete HC HF Hk Hwf Hm Hb).
    exists (fun _ => 1 / 2). apply Ha. lra.
  - apply (robust_frontier_answers best_env w _ CNone None 3 1 None None (linspace 0 1 3) mean2 cov HE best_cp_complete best_chol_complete HC HF Hk Hwf Hm).
    + unfold uncertainty. rewrite HU. exact Hps.
    + apply penalty_grid_accepts. unfold lambda_grid. cbn [Z.leb Z.compare Z.eqb Pos.eqb]. destruct (Rltb_spec 1 0); [lra|]. destruct (Reqb_spec 1 0); [lra|]. reflexivity.
    + left. exact Hiw.
    + exact Hb.
    + exists (fun _ => 1 / 2). apply Ha. lra.
  - apply (cvar_frontier_answers best_env w _ CNone None (fun _ _ => 0) _ _ 5 (1 / 20) true HE best_cp_complete HC HF Hk Hwf); [right; eauto|exact Hpc|lra|exact Hb|].
    exists (fun _ => 1 / 2). apply Ha. lra.
  - apply (relaxed_risk_parity_answers best_env w _ CNone None (1 / 10) None (Some (3 / 4)) None (fun _ => 1 / INR (assets w)) mean2 cov HE best_cp_complete best_chol_complete HC HF Hwf Hm Hps); try (intros; discriminate); try lra.
    + reflexivity.
    + exists (fun _ => 1 / 2). split; [intros; lra|]. split; [rewrite HN; cbn; lra|]. split; [|apply Ha; lra].
      intros i Hi. rewrite HN in *. unfold mv, dot, OptModel.symmetrise. cbn. destruct i as [|[|i]]; [| |lia]; rewrite !Hcov by lia; unfold id2, delta; simpl; lra.
  - apply (relaxed_risk_parity_frontier_answers best_env w _ CNone None 4 2 (1 / 10) None true None (linspace 1 2 4) (fun _ => 1 / INR (assets w)) mean2 cov HE best_cp_complete best_chol_complete HC HF Hwf Hm Hps); try lra.
    + reflexivity.
    + apply multiplier_grid_accepts. unfold multiplier_grid. cbn [Z.leb Z.compare Z.eqb Pos.eqb]. destruct (Rltb_spec 2 1); [lra|]. reflexivity.
    + exists (fun _ => 1 / 2). split; [intros; lra|]. split; [rewrite HN; cbn; lra|]. split; [|apply Ha; lra].
      intros i Hi. rewrite HN in *. unfold mv, dot, OptModel.symmetrise. cbn. destruct i as [|[|i]]; [| |lia]; rewrite !Hcov by lia; unfold id2, delta; simpl; lra.
Qed.

(** Requested 1 with floor 0: the targets tried are 1, 1/2, 1/4, ... *)
Example attempt_case : attempt 1 0 1 = 1 / 2 /\ attempt 1 0 2 = 1 / 4 /\ attempt (1 / 1000000) 0 1 = 0.
Proof.
  assert (A1 : attempt 1 0 1 = 1 / 2) by (cbn; destruct (Rleb_spec ((1 + 0) / 2) (0 + 1 / 1000000)); lra).
  split; [exact A1|]. split.
  - change (attempt 1 0 2) with (let m := (attempt 1 0 1 + 0) / 2 in if Rleb m (0 + 1 / 1000000) then 0 else m). rewrite A1. cbv zeta.
    destruct (Rleb_spec ((1 / 2 + 0) / 2) (0 + 1 / 1000000)); lra.
  - cbn. destruct (Rleb_spec ((1 / 1000000 + 0) / 2) (0 + 1 / 1000000)); lra.
Qed.
