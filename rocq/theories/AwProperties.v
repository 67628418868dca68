(** [PortfolioWrapper] with solvers that stop within tolerances (C159-C163): [approx_env d e E] says that the answers of
    the quadratic, linear and conic solvers violate no constraint by more than [d] and are at most [e] worse than every
    feasible point.  The exact environment of the earlier theorems is the case [d = e = 0]. *)
From Coq Require Import String.
From Verif Require Import RBase QpBase SortLib RiskModel RiskSpec RiskProofs ConsModel ConsSpec ConsProofs MomModel DistModel DistSpec ConvModel OptModel OptSpec OptProofs OptProofs2 OptProofs3 OptProofs6 FrModel FrSpec FrProperties ExistSpec ExistProperties WrModel WrSpec WrProofs WrProofs2 WrProofs3 WrProofs7 WrProperties AxSpec AxProofs AxProperties AwSpec AwProofs AwProofs2 AwProofs3 AwProofs4.
Open Scope R_scope.
Open Scope list_scope.

(** * C159: every portfolio returned satisfies the constraints in effect up to [d] *)
Theorem every_result_nearly_satisfies_constraints :
  forall d e E w c arg k, approx_env d e E -> 0 <= d < 1 -> constructed w c ->
    let ok l := List.length l = assets w /\ near_satisfies d (effective c arg) (assets w) l in
    (forall t p, min_variance_at_return E w t arg k = Ok p -> ok (p_weights p)) /\
    (forall sim t alpha p, min_cvar_at_return E sim w t alpha arg k = Ok p -> ok (p_weights p)) /\
    (forall gm gs p, solve_robust_gamma E w gm gs arg k = Ok p -> ok (p_weights p)) /\
    (forall lam mlt t rb p g, relaxed_risk_parity E w lam mlt t rb arg k = Ok (p, g) -> ok (p_weights p)) /\
    (forall num f, variance_frontier E w num arg k = Ok f -> forall col, In col (f_cols f) -> ok col) /\
    (forall sim lab raw num alpha enf f, cvar_frontier_w E sim lab raw w num alpha enf arg k = Ok f -> forall col, In col (f_cols f) -> ok col) /\
    (forall num mx lams rc f pen, robust_lambda_frontier E w num mx lams rc arg k = Ok (f, pen) -> forall col, In col (f_cols f) -> ok col) /\
    (forall num mx lam mults inc rb f meta, relaxed_risk_parity_frontier E w num mx lam mults inc rb arg k = Ok (f, meta) ->
       forall col, In col (f_cols f) -> ok col).
Proof.
  intros d e E w c arg k HE HD HC ok.
  split; [intros t p H; exact (near_min_variance E w c arg k d e HE HC HD t p H)|].
  split; [intros sim t alpha p H; exact (near_min_cvar E w c arg k d e HE HC HD sim t alpha p H)|].
  split; [intros gm gs p H; exact (near_gamma E w c arg k d e HE HC HD gm gs p H)|].
  split; [intros lam mlt t rb p g H; exact (near_rrp_w E w c arg k d e HE HC HD lam mlt t rb p g H)|].
  split; [intros num f H; exact (near_variance_frontier E w c arg k d e HE HC HD num f H)|].
  split; [intros sim lab raw num alpha enf f H; exact (near_cvar_frontier E w c arg k d e HE HC HD sim lab raw num alpha enf f H)|].
  split; [intros num mx lams rc f pen H; exact (near_robust_w E w c arg k d e HE HC HD num mx lams rc f pen H)|].
  intros num mx lam mults inc rb f meta H. exact (near_rrp_frontier E w c arg k d e HE HC HD num mx lam mults inc rb f meta H).
Qed.
Print Assumptions every_result_nearly_satisfies_constraints.

(** With tolerance zero this is the exact statement, and every exact environment is one of tolerance zero (or more). *)
Theorem near_satisfies_zero : forall c n w, near_satisfies 0 c n w <-> satisfies c n w.
Proof.
  intros c n w. split; [|intros H; apply near_satisfies_weaker; [lra|exact H]].
  intros (H1 & H2 & H3 & H4 & H5 & H6 & H7).
  assert (NB : forall lu x, near_bound 0 lu x -> bound_ok lu x).
  { intros [|lo [|hi [|]]] x; simpl; auto. unfold fin_le, fin_ge. intros [A B]. split; [destruct lo as [[[]|]|]|destruct hi as [[[]|]|]]; auto; lra. }
  assert (Z : forall a b, Rabs (a - b) <= 0 -> a = b).
  { intros a b H. pose proof (Rle_abs (a - b)) as K. pose proof (Rle_abs (- (a - b))) as K'. rewrite Rabs_Ropp in K'. lra. }
  split; [intros E i Hi; specialize (H1 E i Hi); lra|]. split.
  { unfold near_bounds in H2. unfold bounds_hold. destruct (c_bounds c) as [[t|l0|s]|]; auto; intros; apply NB; auto. }
  split.
  { intros e He. specialize (H3 e He). unfold near_rel in H3. unfold rel_hold. destruct e as [i j [[]|]|]; auto. lra. }
  split.
  { intros e He. specialize (H4 e He). unfold near_group in H4. unfold group_hold. destruct e as [nm [[idx [[]|]] [[]|]]]; auto. lra. }
  split.
  { intros e He. specialize (H5 e He). unfold extra_hold in *. destruct (snd e) as [[]|]; auto. destruct H5 as (q & E & H5). exists q. split; [exact E|lra]. }
  split.
  { unfold near_total in H6. unfold total_hold. destruct (c_total c) as [[[]|]|]; auto. }
  intros e He. specialize (H7 e He). unfold extra_hold in *. destruct (snd e) as [[]|]; auto. destruct H7 as (q & E & H7). exists q. split; [exact E|]. apply Z, H7.
Qed.
Print Assumptions near_satisfies_zero.
Theorem exact_env_is_near : forall d e E, 0 <= d -> 0 <= e -> exact_env E -> approx_env d e E.
Proof.
  intros d e E D E0 (H1 & H2 & H3 & H4 & H5).
  assert (C : forall sol, exact_cp sol -> approx_cp d e sol).
  { intros sol Hs p x H. destruct (proj2 (exact_is_inexact _ _ H1 Hs) p x H) as [K1 K2]. split; [apply near_cp_mono; auto|]. intros y Hy. specialize (K2 y Hy). lra. }
  split; [|split; [apply C, H2|split; [apply C, H3|split; assumption]]].
  intros p x H. destruct (proj1 (exact_is_inexact _ _ H1 H2) p x H) as [[K1 K1'] K2]. split; [split|].
  - intros g h Hi. specialize (K1 g h Hi). lra.
  - intros a b Hi. specialize (K1' a b Hi). lra.
  - intros y Hy. specialize (K2 y Hy). lra.
Qed.
Print Assumptions exact_env_is_near.

(** * C160: minimum variance, with the solver off by [d] on constraints and [e] on the optimum *)
Theorem min_variance_inexact :
  forall d e E w c arg k target p mu cov, approx_env d e E -> 0 <= d < 1 -> constructed w c -> in_force c arg (assets w) -> moments w mu cov ->
  (forall kk l, k = Some kk -> k_mic kk = Some l -> List.length l = assets w) ->
  min_variance_at_return E w target arg k = Ok p ->
  let N := assets w in let x := wts (p_weights p) in
  let F y := allowed (effective c arg) N y /\ target <= dot N mu y in
  let cost := mv_cost N cov (iw_of w k) (mic_of w k) in
  List.length (p_weights p) = N /\ p_names p = d_names (w_dist w) /\
  p_return p = dot N (fst (in_reports w mu cov)) x /\ p_risk p = sqrt (quad N (snd (in_reports w mu cov)) x) /\
  near_allowed d (effective c arg) N x /\ target - d <= dot N mu x /\
  exists r, 0 <= r /\ within e F (fun y => cost y + r / 2 * dot N y y) x /\
    (complete_qp (e_qp E) -> (exists y, minimises F cost y) -> r = 0).
Proof. exact min_variance_near. Qed.
Print Assumptions min_variance_inexact.

(** The whole frontier: every column meets the constraints and its return target up to [d] and costs at most [e] more
    than any admissible portfolio reaching the same target. *)
Theorem variance_frontier_nearly_efficient :
  forall d e E w c arg k num f mu cov, approx_env d e E -> 0 <= d < 1 -> complete_qp (e_qp E) -> constructed w c -> in_force c arg (assets w) ->
  moments w mu cov -> (forall kk l, k = Some kk -> k_mic kk = Some l -> List.length l = assets w) ->
  let N := assets w in
  let F y := allowed (effective c arg) N y in
  let Fn y := near_allowed d (effective c arg) N y in
  let cost := mv_cost N cov (iw_of w k) (mic_of w k) in
  attained F N mu cost ->
  variance_frontier E w num arg k = Ok f ->
  f_n f = N /\ f_names f = d_names (w_dist w) /\ f_measure f = "Volatility"%string /\
  describes f (dot N (fst (in_reports w mu cov))) (vol N (snd (in_reports w mu cov))) /\
  (forall lab v, In (lab, v) (f_alt f) -> lab = "CVaR (95%)"%string /\ cvar95_column w (f_cols f) v) /\
  exists mr, nearly_max e F Fn (dot N mu) mr /\ Fn (wts (nth 0 (f_cols f) [])) /\ within e F cost (wts (nth 0 (f_cols f) [])) /\
    ((frontier_collapses num (dot N mu (wts (nth 0 (f_cols f) []))) mr /\ List.length (f_cols f) = 1%nat) \/
     nearly_efficient d e F Fn cost (dot N mu) mr (Z.to_nat num) (map wts (f_cols f))).
Proof. exact variance_frontier_near. Qed.
Print Assumptions variance_frontier_nearly_efficient.

(** * C161: minimum CVaR *)
(** A violation of [d] in the scenario rows of the linear programme is amplified by [1 / alpha]. *)
Theorem min_cvar_inexact :
  forall d e E sim w c arg k target alpha p, approx_env d e E -> 0 <= d < 1 -> constructed w c -> in_force c arg (assets w) -> pc_nonneg w k ->
  min_cvar_at_return E sim w target alpha arg k = Ok p ->
  let N := assets w in let x := wts (p_weights p) in
  0 < alpha < 1 /\ List.length (p_weights p) = N /\ p_names p = d_names (w_dist w) /\ near_allowed d (effective c arg) N x /\
  exists T X q mu v, scenario_data sim w T X q /\ prob_vec T q /\
    let F y := allowed (effective c arg) N y /\ target <= dot N (scenario_mean T X q) y in
    let slack := e + d / alpha + 3 * d * cost_rate (pc_of w k) (iw_of w k) N in
    target - d <= dot N (scenario_mean T X q) x /\ cvar_of N T X q alpha x v /\ p_risk p = Rabs v /\ p_return p = dot N mu x /\
    (forall y v', F y -> cvar_of N T X q alpha y v' ->
       v + turnover_cost N (iw_of w k) (pc_of w k) x <= v' + turnover_cost N (iw_of w k) (pc_of w k) y + slack) /\
    match d_mu (w_dist w) with
    | None => forall i, mu i = scenario_mean T X q i
    | Some m => exists cov, mu = fst (in_reports w (as_vec m) cov) /\ (w_log w = true -> moments w (as_vec m) cov)
    end.
Proof. exact min_cvar_near. Qed.
Print Assumptions min_cvar_inexact.

Theorem cvar_frontier_nearly_efficient :
  forall d e E sim lab raw w c arg k num alpha enf f, approx_env d e E -> 0 <= d < 1 -> constructed w c -> in_force c arg (assets w) -> pc_nonneg w k ->
  cvar_frontier_w E sim lab raw w num alpha enf arg k = Ok f ->
  let N := assets w in
  let F y := allowed (effective c arg) N y in
  let Fn y := near_allowed d (effective c arg) N y in
  let slack := e + d / alpha + 3 * d * cost_rate (pc_of w k) (iw_of w k) N in
  0 < alpha < 1 /\ f_n f = N /\ f_names f = d_names (w_dist w) /\ f_measure f = lab alpha /\
  exists T X q mu cost mr cols, scenario_data sim w T X q /\ prob_vec T q /\ cvar_cost N T X q alpha (iw_of w k) (pc_of w k) cost /\
    f_ret f = map (fun l => dot N mu (wts l)) (f_cols f) /\ nondecreasing (f_ret f) /\
    Permutation (f_cols f) cols /\
    nearly_max e F Fn (dot N (scenario_mean T X q)) mr /\ Fn (wts (nth 0 cols [])) /\ within slack F cost (wts (nth 0 cols [])) /\
    ((frontier_collapses num (dot N (scenario_mean T X q) (wts (nth 0 cols []))) mr /\ List.length cols = 1%nat) \/
     nearly_efficient d slack F Fn cost (dot N (scenario_mean T X q)) mr (Z.to_nat num) (map wts cols)) /\
    (exists risks, In (raw alpha, risks) (f_alt f) /\ (enf = false -> f_risk f = risks) /\ (enf = true -> nondecreasing (f_risk f)) /\
       Forall2 (fun l r => exists v, cvar_of N T X q alpha (wts l) v /\ r = Rabs v) (f_cols f) risks).
Proof. exact cvar_frontier_w_near. Qed.
Print Assumptions cvar_frontier_nearly_efficient.

(** * C162: robust portfolios *)
Theorem robust_frontier_nearly_optimal :
  forall d e E w c arg k num mx lams rc f lam' mu cov, approx_env d e E -> 0 <= d < 1 -> constructed w c -> in_force c arg (assets w) -> moments w mu cov ->
  robust_lambda_frontier E w num mx lams rc arg k = Ok (f, lam') ->
  let N := assets w in let F y := allowed (effective c arg) N y in
  f_n f = N /\ f_names f = d_names (w_dist w) /\ f_measure f = robust_measure /\
  List.length lam' = List.length (f_cols f) /\ List.length (f_risk f) = List.length (f_cols f) /\ nondecreasing (f_risk f) /\
  f_ret f = map (fun l => dot N (fst (in_reports w mu cov)) (wts l)) (f_cols f) /\
  (exists grid, penalties num mx lams grid /\ Permutation lam' grid) /\
  exists L, root_of N (uncertainty w cov) L /\
    forall i, (i < List.length lam')%nat ->
      let x := wts (nth i (f_cols f) []) in
      0 <= nth i lam' 0 /\ near_allowed d (effective c arg) N x /\
      within (e + nth i lam' 0 * d) F (fun y => - dot N mu y + nth i lam' 0 * norm2 N (mv N L y)) x /\
      norm2 N (mv N L x) <= nth i (f_risk f) 0 + d.
Proof. exact robust_frontier_w_near. Qed.
Print Assumptions robust_frontier_nearly_optimal.

Theorem robust_gamma_portfolio_inexact :
  forall d e E w c arg k gm gs p mu cov, approx_env d e E -> 0 <= d < 1 -> constructed w c -> in_force c arg (assets w) -> moments w mu cov ->
  solve_robust_gamma E w gm gs arg k = Ok p ->
  let N := assets w in let F y := allowed (effective c arg) N y in let x := wts (p_weights p) in
  0 <= gm /\ 0 <= gs /\ List.length (p_weights p) = N /\ p_names p = d_names (w_dist w) /\ p_return p = dot N mu x /\
  near_allowed d (effective c arg) N x /\
  exists L, root_of N (uncertainty w cov) L /\
    norm2 N (mv N L x) <= sqrt gs + 2 * d /\
    within (e + gm * d) (fun y => F y /\ norm2 N (mv N L y) <= sqrt gs) (fun y => - dot N mu y + gm * norm2 N (mv N L y)) x.
Proof. exact gamma_near. Qed.
Print Assumptions robust_gamma_portfolio_inexact.

(** * C163: relaxed risk parity *)
Theorem relaxed_risk_parity_inexact :
  forall d e E w c arg k lam mlt target rb p g mu cov, approx_env d e E -> 0 <= d < 1 -> constructed w c -> in_force c arg (assets w) -> moments w mu cov ->
  relaxed_risk_parity E w lam mlt target rb arg k = Ok (p, g) ->
  let N := assets w in let F y := allowed (effective c arg) N y in let Fn y := near_allowed d (effective c arg) N y in let x := wts (p_weights p) in
  let rmu := fst (in_reports w mu cov) in let rcov := snd (in_reports w mu cov) in
  let lower := Rmax (g_rp_return g) 0 in
  List.length (p_weights p) = N /\ p_names p = d_names (w_dist w) /\ p_return p = dot N rmu x /\ p_risk p = sqrt (quad N rcov x) /\ g_variance g = quad N rcov x /\
  0 <= lam /\
  (exists marg, near_risk_parity d e N mu cov F Fn rb 0 None (wts (g_rp_weights g)) marg) /\ g_rp_return g = dot N rmu (wts (g_rp_weights g)) /\
  g_requested g = match target, mlt with Some t, _ => Some t | None, Some q => Some (q * lower) | None, None => None end /\
  (exists marg, near_risk_parity d e N mu cov F Fn rb lam (g_target g) x marg /\ g_contrib g = map (fun i => x i * marg i) (seq 0 N)) /\
  (g_warning g = true -> g_requested g <> None /\ g_target g = None) /\
  (forall t, g_warning g = false -> g_requested g = Some t ->
     exists cl, g_target g = Some cl /\ cl - d <= dot N mu x /\ lower <= cl <= Rmax t lower).
Proof. exact rrp_portfolio_near. Qed.
Print Assumptions relaxed_risk_parity_inexact.

Theorem relaxed_risk_parity_frontier_inexact :
  forall d e E w c arg k num mx lam mults inc rb f meta mu cov, approx_env d e E -> 0 <= d < 1 -> constructed w c -> in_force c arg (assets w) -> moments w mu cov ->
  relaxed_risk_parity_frontier E w num mx lam mults inc rb arg k = Ok (f, meta) ->
  let N := assets w in let F y := allowed (effective c arg) N y in let Fn y := near_allowed d (effective c arg) N y in
  let rmu := fst (in_reports w mu cov) in let rcov := snd (in_reports w mu cov) in
  0 <= lam /\ f_n f = N /\ f_names f = d_names (w_dist w) /\ f_measure f = "Volatility (Relaxed RP)"%string /\
  describes f (dot N rmu) (fun x => sqrt (Rmax (quad N rcov x) 0)) /\
  List.length meta = List.length (f_cols f) /\
  exists anchor grid marg, near_risk_parity d e N mu cov F Fn rb 0 None (wts anchor) marg /\ multipliers num mx mults grid /\
    map t_mult meta = (if inc then [None] else []) ++ map Some grid /\
    let lower := Rmax (dot N rmu (wts anchor)) 0 in
    forall i, (i < List.length meta)%nat ->
      let en := nth i meta (mkMeta None None None false) in let x := wts (nth i (f_cols f) []) in
      match t_mult en with
      | None => nth i (f_cols f) [] = anchor /\ t_requested en = None /\ t_effective en = None /\ t_warning en = false
      | Some q => t_requested en = Some (q * lower) /\
                  (exists marg, near_risk_parity d e N mu cov F Fn rb lam (t_effective en) x marg) /\
                  (t_warning en = true -> t_effective en = None) /\
                  (t_warning en = false -> exists cl, t_effective en = Some cl /\ cl - d <= dot N mu x /\ lower <= cl <= Rmax (q * lower) lower)
      end.
Proof. exact rrp_frontier_near. Qed.
Print Assumptions relaxed_risk_parity_frontier_inexact.

(** A tolerance of a tenth: the quadratic solver over-invests, the weights break the budget by a tenth, and the
    hypotheses of the theorems above hold.  Every other method answers as in [wrapper_case], by [exact_env_is_near]. *)
Example wrapper_inexact_case :
  exists E w mu cov p, approx_env (1 / 10) (11 / 100) E /\ complete_qp (e_qp E) /\ ~ exact_env E /\ constructed w default_constraints /\
    in_force default_constraints CNone (assets w) /\ moments w mu cov /\ assets w = 2%nat /\
    min_variance_at_return E w (1 / 4) CNone None = Ok p /\ p_weights p = [6 / 10; 5 / 10] /\ p_return p = 5 / 10 /\
    ~ satisfies default_constraints 2 (p_weights p) /\ near_satisfies (1 / 10) default_constraints 2 (p_weights p).
Proof.
  destruct (build_moments 2 mean2 id2 CNone None true (Some (Num (Fin 1))) None) as (w & cov & HC & HN & HL & HU & _ & Hco & Hm & Hcov);
    [lia|intros kk E; discriminate|apply default_well_formed; lia|].
  change (asked CNone true (Some (Num (Fin 1))) None) with default_constraints in HC.
  pose proof (constructed_good w _ HC) as G.
  assert (HF : in_force default_constraints CNone (assets w)) by (apply default_in_force; lia).
  assert (Hwf : ConsSpec.well_formed (effective default_constraints CNone) (Z.of_nat (assets w))) by (rewrite HN; apply default_well_formed; lia).
  destruct (proj2 (resolve_total w _ CNone G) Hwf) as [m Er].
  assert (Hiw : iw_of w None = None) by (cbn; injection Hco as Hco _ _; exact Hco).
  set (P := fun i j : nat => 2 * cov i j).
  set (p0 := mv_qp (assets w) mean2 P zrow (rows_G m) (rows_A m) (Some (1 / 4))).
  set (x0 := pt2 (6 / 10) (5 / 10)).
  assert (HFi := fun y => resolve_in_force w _ CNone m y G HF Er).
  assert (Ha : forall y, allowed (effective default_constraints CNone) (assets w) y -> y 0%nat + y 1%nat = 1).
  { intros y Hy. cbn [effective] in Hy. apply allowed_default in Hy as [_ Hy]. rewrite HN in Hy. cbn in Hy. lra. }
  assert (Ho : forall y, qp_obj p0 y = y 0%nat * y 0%nat + y 1%nat * y 1%nat).
  { intros y. unfold qp_obj, p0; cbn [mv_qp qp_n qp_P qp_q]. rewrite dot_zrow, HN, quad2. unfold P. rewrite !Hcov by lia. unfold id2, delta. simpl. lra. }
  assert (Hns : near_satisfies (1 / 10) default_constraints 2 [6 / 10; 5 / 10]).
  { split; [|split; [exact I|repeat (split; [intros ? []|])]].
    - intros _ i Hi. destruct i as [|[|i]]; [| |lia]; unfold wt; simpl; lra.
    - split; [|intros ? []]. unfold near_total; cbn. unfold rsum; cbn. apply Rabs_le. lra. }
  assert (Hns' : near_allowed (1 / 10) (effective default_constraints CNone) (assets w) x0).
  { cbn [effective]. rewrite HN. exact Hns. }
  assert (Hnc : near_constrained (1 / 10) (assets w) (rows_G m) (rows_A m) x0).
  { apply (near_in_force (1 / 10) w default_constraints CNone m x0); auto. lra. }
  assert (Hd : forall y, dot (assets w) mean2 y = y 1%nat) by (intros y; rewrite HN; apply mean2_dot).
  destruct (pin_qp_approx (1 / 10) (11 / 100) p0 x0) as (A1 & A2 & A3); [lra|lra| | |].
  { destruct Hnc as [N1 N2]. split; [|exact N2]. intros g h Hi. cbn [mv_qp p0 qp_ineq qp_n with_target] in *. apply in_app_or in Hi as [Hi|[Hi|[]]]; [apply N1, Hi|].
    injection Hi as <- <-. rewrite dot_hcat0, dot_ropp, Hd. unfold x0, pt2, of_list. simpl. lra. }
  { intros y Hy. apply mv_feasible_iff in Hy as [Hy _]. apply HFi, Ha in Hy. rewrite !Ho. unfold x0, pt2, of_list. simpl.
    replace (y 0%nat) with (1 - y 1%nat) by lra. pose proof (Rle_0_sqr (y 1%nat - 1 / 2)) as K. unfold Rsqr in K. lra. }
  set (E := mkEnv (pin_qp p0 x0) best_cp best_cp best_chol (e_sort best_env)).
  assert (Hnot : ~ satisfies default_constraints 2 [6 / 10; 5 / 10]).
  { intros (_ & _ & _ & _ & _ & K & _). unfold total_hold in K; cbn in K. unfold rsum in K; cbn in K. lra. }
  assert (HE : approx_env (1 / 10) (11 / 100) E).
  { destruct (exact_env_is_near (1 / 10) (11 / 100) best_env ltac:(lra) ltac:(lra) best_env_exact) as (_ & B2 & B3 & B4 & B5).
    split; [exact A1|]. split; [exact B2|]. split; [exact B3|]. split; [exact B4|exact B5]. }
  assert (Hx : exists p, min_variance_at_return E w (1 / 4) CNone None = Ok p /\ p_weights p = [6 / 10; 5 / 10]).
  { eexists. split.
    - unfold min_variance_at_return. rewrite (require_ok w _ _ Hm). cbn [bind fst snd]. rewrite Er. cbn [bind]. rewrite resolve_costs_eq. rewrite Hiw. cbn [mv_terms bind].
      unfold mv_solve_target. fold (assets w). change (e_qp E) with (pin_qp p0 x0).
      match goal with |- context [pin_qp p0 x0 ?q] => change q with p0 end. rewrite A3. cbn [as_infeasible bind]. reflexivity.
    - cbn [p_weights]. fold (assets w). rewrite HN. unfold x0, pt2, of_list. reflexivity. }
  destruct Hx as (p & Ep & Ew). exists E, w, mean2, cov, p. split; [exact HE|]. split; [exact A2|]. split.
  { intros HX. apply Hnot. pose proof (proj1 (every_result_satisfies_constraints E w default_constraints CNone None HX HC) _ _ Ep) as [_ K]. rewrite Ew, HN in K. exact K. }
  split; [exact HC|]. split; [exact HF|]. split; [exact Hm|]. split; [exact HN|]. split; [exact Ep|]. split; [exact Ew|]. split.
  { destruct (min_variance_inexact _ _ E w _ CNone None _ p mean2 cov HE ltac:(lra) HC HF Hm ltac:(intros kk l K; discriminate) Ep) as (_ & _ & -> & _).
    unfold in_reports. rewrite HL. cbn [fst]. rewrite Hd, Ew. unfold wts. reflexivity. }
  rewrite Ew. split; assumption.
Qed.
Print Assumptions wrapper_inexact_case.
