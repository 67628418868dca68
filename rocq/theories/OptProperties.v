(** Theorems about the optimisers (C21-C26, C56-C58).

    In every theorem the numerical solvers are assumed exact: a point returned with status
    "optimal" is a global optimum of the programme it was given ([exact_qp], [exact_cp]), a factor
    returned by LAPACK is the Cholesky factor ([exact_chol]).  The examples run the model with
    such solvers. *)
From Verif Require Import RBase QpBase RiskSpec OptModel OptSpec OptProofs OptProofs2 OptProofs3 OptProofs4 OptProofs5 OptProofs6.
Open Scope R_scope.

(** * C21 *)
(** Every feasible point of the LP consists of weights satisfying the user's constraints and
    target, and costs at least CVaR plus proportional turnover cost; every such weight vector extends
    to a feasible point costing exactly that. *)
Theorem cvar_lp_value :
  forall N T Rm p alpha w0 costs G A target, prob_vec T p -> 0 < alpha ->
    (forall c, costs = Some c -> forall i, (i < N)%nat -> 0 <= nth i c 0) ->
    let prog := cvar_lp N T Rm p alpha (turnover w0 costs) G A target in
    let value w v := is_cvar (to_list T p) (to_list T (fun t => dot N (Rm t) w)) alpha v in
    let earns w := meets N (cvar_mean T p Rm) target w in
    (forall x, cp_feasible prog x -> constrained N G A x /\ earns x /\
       forall v, value x v -> v + turnover_cost N w0 costs x <= cp_obj prog x) /\
    (forall w v, constrained N G A w -> earns w -> value w v ->
       exists x, (forall i, (i < N)%nat -> x i = w i) /\ cp_feasible prog x /\
                 cp_obj prog x = v + turnover_cost N w0 costs w).
Proof.
  intros N T Rm p alpha w0 costs G A target Hp Ha Hc prog value earns. split.
  - intros x Hx. apply cvar_feasible_iff in Hx as [Hx Ht]. split; [apply Hx|]. split; [exact Ht|].
    intros v Hv. exact (cvar_lp_lower N T Rm p alpha w0 costs G A _ _ x v Hp Ha Hc Hx Hv).
  - intros w v Hw He Hv.
    destruct (cvar_lp_attained N T Rm p alpha w0 costs G A w v
                (with_target N (cvar_mean T p Rm) (cvar_lin N T Rm (turnover w0 costs) G) target)
                (cvar_eq N T (turnover w0 costs) A) Ha Hw Hv) as (x & Ex & Hx & Ho).
    exists x. split; [exact Ex|]. split; [|exact Ho]. apply cvar_feasible_iff. split; [exact Hx|].
    unfold earns, meets in *. destruct target as [t|]; [|exact I]. rewrite (dot_ext_r _ _ _ w) by exact Ex. exact He.
Qed.
Print Assumptions cvar_lp_value.

(** The portfolio returned minimises CVaR plus turnover cost among the portfolios that satisfy the
    constraints and earn the target. *)
Theorem mean_cvar_portfolio_optimal :
  forall lp N T Rm p alpha w0 costs G A target w cost, exact_cp lp -> prob_vec T p -> 0 < alpha ->
    (forall c, costs = Some c -> forall i, (i < N)%nat -> 0 <= nth i c 0) ->
    cvar_cost N T Rm p alpha w0 costs cost ->
    cvar_portfolio lp N T Rm p alpha w0 costs G A target = Ok w ->
    minimises (fun w => constrained N G A w /\ meets N (cvar_mean T p Rm) target w) cost w.
Proof. exact cvar_portfolio_l. Qed.
Print Assumptions mean_cvar_portfolio_optimal.

(** That cost exists for every confidence level in (0, 1]. *)
Theorem cvar_cost_exists :
  forall N T Rm p alpha w0 costs w, prob_vec T p -> 0 < alpha <= 1 ->
    exists v, is_cvar (to_list T p) (to_list T (fun t => dot N (Rm t) w)) alpha (v - turnover_cost N w0 costs w).
Proof.
  intros. destruct (cvar_exists T p (fun t => dot N (Rm t) w) alpha) as [v Hv]; auto.
  exists (v + turnover_cost N w0 costs w). replace (v + turnover_cost N w0 costs w - turnover_cost N w0 costs w) with v by ring. exact Hv.
Qed.
Print Assumptions cvar_cost_exists.

(** A tail probability outside [0, 1] is not rejected up front; the LP is unbounded (or infeasible),
    so every call raises RuntimeError. *)
Theorem mean_cvar_bad_alpha :
  forall lp N T Rm p alpha w0 costs G A target, exact_cp lp -> prob_vec T p -> alpha < 0 \/ 1 < alpha ->
    (forall a b, w0 = Some a -> costs = Some b -> length a = N /\ length b = N) ->
    cvar_portfolio lp N T Rm p alpha w0 costs G A target = Err RuntimeError.
Proof.
  intros lp N T Rm p alpha w0 costs G A target Hs [_ Hp] Ha Hl. unfold cvar_portfolio, cvar_init.
  destruct w0 as [a|], costs as [b|]; cbn [turnover]; try (apply cvar_bad_alpha; assumption).
  destruct (Hl a b eq_refl eq_refl) as [E1 E2]. unfold check_shapes. rewrite E1, E2, Nat.eqb_refl. cbn [guard].
  apply (cvar_bad_alpha lp N T Rm p alpha (Some (a, b))); assumption.
Qed.
Print Assumptions mean_cvar_bad_alpha.

(** One of the two optional arguments alone has no effect. *)
Theorem mean_cvar_costs_need_both :
  forall lp N T Rm p alpha w0 costs G A target, w0 = None \/ costs = None ->
    cvar_portfolio lp N T Rm p alpha w0 costs G A target = cvar_portfolio lp N T Rm p alpha None None G A target.
Proof. intros. destruct H as [-> | ->]; [reflexivity|]. destruct w0; reflexivity. Qed.
Print Assumptions mean_cvar_costs_need_both.

Example mean_cvar_case :
  exact_cp (try_cp [cv_sol]) /\ prob_vec 2 (cst (1/2)) /\
  cvar_portfolio (try_cp [cv_sol]) 2 2 cv_R (cst (1/2)) (1/2) None None lo2 bud2 None = Ok cv_sol.
Proof. split; [apply try_cp_exact|]. split; [exact cv_prob|exact cvar_runs]. Qed.

(** * C22 *)
(** Up to a constant the QP objective is variance plus quadratic impact; its feasible set is the
    user's constraints plus the return target. *)
Theorem mv_qp_meaning :
  forall n mean cov w0 lam P q G A target, (forall l, lam = Some l -> w0 <> None -> length l = n) ->
    mv_terms n cov w0 lam = Ok (P, q) ->
    (exists k, forall w, qp_obj (mv_qp n mean P q G A target) w = mv_cost n cov w0 lam w + k) /\
    (forall w, qp_feasible (mv_qp n mean P q G A target) w <-> constrained n G A w /\ meets n mean target w).
Proof.
  intros n mean cov w0 lam P q G A target Hl H. split; [|intros; apply mv_feasible_iff].
  destruct (mv_objective n cov w0 lam P q Hl H) as [k Hk]. exists k. intros w. rewrite <- Hk. unfold qp_obj; simpl. lra.
Qed.
Print Assumptions mv_qp_meaning.

(** The portfolio returned minimises that cost -- plus a ridge [r/2 |w|^2] which is zero unless the
    first solve failed, and then exactly the documented [max(1e-8, 1e-8 tr(P)/n)]. *)
Theorem mv_portfolio_optimal :
  forall solve n mean cov G A w0 lam target w, exact_qp solve ->
    (forall l, lam = Some l -> w0 <> None -> length l = n) ->
    mv_portfolio solve n mean cov G A w0 lam target = Ok w ->
    exists r, 0 <= r /\
      minimises (fun w => constrained n G A w /\ meets n mean target w)
        (fun w => mv_cost n cov w0 lam w + r / 2 * dot n w w) w /\
      (forall P q, mv_terms n cov w0 lam = Ok (P, q) -> solve (mv_qp n mean P q G A target) <> None -> r = 0).
Proof. exact mv_portfolio_l. Qed.
Print Assumptions mv_portfolio_optimal.

(** A single impact coefficient is not spread over the assets: numpy broadcasts the 1x1 matrix, and
    what is penalised is the squared deviation of the total weight. *)
Theorem mv_single_cost_broadcast_refuted :
  forall n cov w0 l P q, n <> 1%nat -> mv_terms n cov (Some [w0]) (Some [l]) = Ok (P, q) ->
    (exists k, forall w, quad n P w / 2 + dot n q w = quad n cov w + l * (sumn n w - w0) ^ 2 + k).
Proof.
  intros n cov w0 l P q Hn H. simpl in H. unfold quadratic_turnover, check_shapes in H. simpl in H.
  destruct n as [|[|n]]; [| |]; simpl in H; try contradiction; injection H as <- <-; exists (- l * w0 ^ 2); intros w.
  - unfold quad, dot. simpl. field.
  - set (m := S (S n)).
    assert (E1 : quad m (fun i j => 2 * cov i j + 2 * l) w = 2 * quad m cov w + 2 * l * (sumn m w * sumn m w)).
    { unfold quad. rewrite (sumn_ext m _ (fun i => 2 * sumn m (fun j => cov i j * w i * w j) + 2 * l * (w i * sumn m w))).
      - rewrite sumn_plus. rewrite !sumn_scale. f_equal. f_equal. rewrite <- (sumn_scale_r m (sumn m w) w). reflexivity.
      - intros i Hi. rewrite <- sumn_scale. rewrite (sumn_ext m (fun j => (2 * cov i j + 2 * l) * w i * w j) (fun j => 2 * (cov i j * w i * w j) + (2 * l * w i) * w j)) by (intros; ring).
        rewrite sumn_plus, (sumn_scale m (2 * l * w i) w). ring_simplify. reflexivity. }
    rewrite E1. assert (E2 : dot m (fun i => zrow i - 2 * (l * w0)) w = - 2 * l * w0 * sumn m w).
    { unfold dot, zrow. rewrite <- sumn_scale. apply sumn_ext. intros; ring. }
    rewrite E2. lra.
Qed.
Print Assumptions mv_single_cost_broadcast_refuted.

(** One of the two optional arguments alone has no effect. *)
Theorem mv_costs_need_both :
  forall solve n mean cov G A w0 lam target, w0 = None \/ lam = None ->
    mv_portfolio solve n mean cov G A w0 lam target = mv_portfolio solve n mean cov G A None None target.
Proof. intros. destruct H as [-> | ->]; [reflexivity|]. destruct w0; reflexivity. Qed.
Print Assumptions mv_costs_need_both.

Example mv_cost_case : exists P q, mv_terms 2 id2 (Some [1/2; 1/2]) (Some [1; 2]) = Ok (P, q) /\
  mv_cost 2 id2 (Some [1/2; 1/2]) (Some [1; 2]) (pt2 0 1) = 1 + (1/4 + 1/2).
Proof. eexists _, _. split; [reflexivity|]. unfold mv_cost. rewrite quad2. unfold impact, id2, delta, pt2, of_list. simpl. lra. Qed.

(** * C23 *)
(** Mean-variance frontier: either it collapses to the minimum-cost portfolio (fewer than two columns
    asked, or no return to gain), or it is the efficient frontier on the equally spaced targets, which
    is convex for a positive semidefinite covariance and non-negative impact. *)
Theorem mv_frontier_efficient :
  forall solve lp n mean cov G A w0 lam num cols, exact_qp solve -> exact_cp lp ->
    (forall l, lam = Some l -> w0 <> None -> length l = n) ->
    complete_qp solve -> attained (constrained n G A) n mean (mv_cost n cov w0 lam) ->
    mv_frontier solve lp n mean cov G A w0 lam num = Ok cols ->
    exists max_ret, is_max (constrained n G A) (dot n mean) max_ret /\
      minimises (constrained n G A) (mv_cost n cov w0 lam) (nth 0 cols zrow) /\
      ((frontier_collapses num (dot n mean (nth 0 cols zrow)) max_ret /\ length cols = 1%nat) \/
       (efficient_frontier (constrained n G A) (mv_cost n cov w0 lam) (dot n mean) max_ret (Z.to_nat num) cols /\
        (psd n cov -> (forall l x, lam = Some l -> In x l -> 0 <= x) -> convex_frontier (mv_cost n cov w0 lam) cols))).
Proof.
  intros solve lp n mean cov G A w0 lam num cols Hq Hl Hlen Hok Hat H.
  destruct (mv_frontier_l solve lp n mean cov G A w0 lam num cols Hq Hl Hlen Hok Hat H) as (m & Hm & Hf & Hd).
  exists m. split; [exact Hm|]. split; [exact Hf|]. destruct Hd as [Hd|[Hn He]]; [left; exact Hd|right].
  split; [exact He|]. intros Hpsd Hpos.
  apply (frontier_convex (constrained n G A) (mv_cost n cov w0 lam) n mean m (Z.to_nat num) cols).
  - intros; apply constrained_midpoint; assumption.
  - intros; apply mv_cost_midpoint; assumption.
  - unfold frontier_collapses in Hn. lia.
  - exact He.
Qed.
Print Assumptions mv_frontier_efficient.

(** ... and it is returned whenever the return is bounded by an attained maximum. *)
Theorem mv_frontier_returned :
  forall solve lp n mean cov G A w0 lam num m, exact_qp solve -> exact_cp lp -> complete_qp solve -> complete_cp lp ->
    (forall a l, w0 = Some a -> lam = Some l -> length a = n /\ length l = n) ->
    attained (constrained n G A) n mean (mv_cost n cov w0 lam) -> is_max (constrained n G A) (dot n mean) m ->
    exists cols, mv_frontier solve lp n mean cov G A w0 lam num = Ok cols.
Proof.
  intros solve lp n mean cov G A w0 lam num m H1 H2 H3 H4 Hl Hat Hm.
  destruct (mv_terms_total n cov w0 lam Hl) as (P & q & Ht).
  apply (mv_frontier_total solve lp n mean cov G A w0 lam num P q m); auto.
  intros l -> Hn. destruct w0 as [a|]; [|contradiction]. apply (Hl a l eq_refl eq_refl).
Qed.
Print Assumptions mv_frontier_returned.

(** Mean-CVaR frontier: likewise. *)
Theorem cvar_frontier_efficient :
  forall lp N T Rm p alpha w0 costs G A num cols cost, exact_cp lp -> prob_vec T p -> 0 < alpha <= 1 ->
    (forall c, costs = Some c -> forall i, (i < N)%nat -> 0 <= nth i c 0) ->
    cvar_cost N T Rm p alpha w0 costs cost ->
    cvar_frontier lp N T Rm p alpha w0 costs G A num = Ok cols ->
    exists max_ret, is_max (constrained N G A) (dot N (cvar_mean T p Rm)) max_ret /\
      minimises (constrained N G A) cost (nth 0 cols zrow) /\
      ((frontier_collapses num (dot N (cvar_mean T p Rm) (nth 0 cols zrow)) max_ret /\ length cols = 1%nat) \/
       (efficient_frontier (constrained N G A) cost (dot N (cvar_mean T p Rm)) max_ret (Z.to_nat num) cols /\
        convex_frontier cost cols)).
Proof.
  intros lp N T Rm p alpha w0 costs G A num cols cost Hs Hp Ha Hc Hcost H.
  destruct (cvar_frontier_l lp N T Rm p alpha w0 costs G A num cols cost Hs Hp Ha Hc Hcost H) as (m & Hm & Hf & Hd).
  exists m. split; [exact Hm|]. split; [exact Hf|]. destruct Hd as [Hd|[Hn He]]; [left; exact Hd|right].
  split; [exact He|].
  apply (frontier_convex (constrained N G A) cost N (cvar_mean T p Rm) m (Z.to_nat num) cols).
  - intros; apply constrained_midpoint; assumption.
  - intros; eapply cvar_cost_midpoint; eauto; lra.
  - unfold frontier_collapses in Hn. lia.
  - exact He.
Qed.
Print Assumptions cvar_frontier_efficient.

Example mv_frontier_case : exact_qp frontier_solver /\ exact_cp frontier_lp /\
  mv_frontier frontier_solver frontier_lp 2 mean2 id2 lo2 bud2 None None 3 =
    Ok [pt2 (1 - 1 / 2) (1 / 2); pt2 (1 - 3 / 4) (3 / 4); pt2 (1 - 1) 1].
Proof. split; [apply try_qp_exact|]. split; [apply try_cp_exact|exact mv_frontier_runs]. Qed.

Example mv_frontier_hypotheses : exact_qp best_qp /\ exact_cp best_cp /\ complete_qp best_qp /\ complete_cp best_cp /\
  attained (constrained 2 lo2 bud2) 2 mean2 (mv_cost 2 id2 None None) /\
  exists cols, mv_frontier best_qp best_cp 2 mean2 id2 lo2 bud2 None None 3 = Ok cols.
Proof.
  split; [apply best_qp_exact|]. split; [apply best_cp_exact|]. split; [apply best_qp_complete|]. split; [apply best_cp_complete|]. split; [apply attained2|].
  apply (mv_frontier_returned best_qp best_cp 2 mean2 id2 lo2 bud2 None None 3 1 best_qp_exact best_cp_exact best_qp_complete best_cp_complete);
    [discriminate|apply attained2|apply is_max2].
Qed.

(** * C24 *)
(** With right-hand sides zero except the fully invested row, and a positive excess return, the
    portfolio is feasible, fully invested and of maximal Sharpe ratio. *)
Theorem max_sharpe_optimal :
  forall solve n mean cov G A rf r, exact_qp solve -> homogeneous_set n G A ->
    max_sharpe solve n mean cov G A rf = Ok r ->
    0 < excess n mean rf (r_weights r) -> 0 < quad n cov (r_weights r) ->
    constrained n G A (r_weights r) /\ sumn n (r_weights r) = 1 /\
    r_return r = dot n mean (r_weights r) /\ r_risk r = sqrt (quad n cov (r_weights r)) /\
    forall w', constrained n G A w' -> sumn n w' = 1 -> 0 < quad n cov w' ->
      sharpe n mean cov rf w' <= sharpe n mean cov rf (r_weights r).
Proof.
  intros solve n mean cov G A rf r Hs Hh H He Hq.
  destruct (max_sharpe_opt solve n mean cov G A rf r Hs Hh H He Hq) as (H1 & H2 & H3).
  destruct (sharpe_inv solve n mean cov G A rf r Hs H) as (y & s & _ & _ & _ & _ & _ & _ & E1 & E2).
  repeat (split; [assumption|]). exact H3.
Qed.
Print Assumptions max_sharpe_optimal.

(** Long-only rows are enough for the excess return to be positive. *)
Theorem max_sharpe_long_only_positive :
  forall solve n mean cov G A rf r, exact_qp solve ->
    (forall i, (i < n)%nat -> exists h, In (ropp (eye_row i), h) (opt_rows G)) ->
    max_sharpe solve n mean cov G A rf = Ok r ->
    0 < excess n mean rf (r_weights r) /\ forall i, (i < n)%nat -> 0 <= r_weights r i.
Proof. exact max_sharpe_long_only. Qed.
Print Assumptions max_sharpe_long_only_positive.

(** Box constraints [l <= w <= u] lose their bounds: every call raises InfeasibleError,
    however good the feasible portfolios are. *)
Theorem max_sharpe_box_always_raises_refuted :
  forall solve n mean cov G A rf, exact_qp solve ->
    (forall i, (i < n)%nat -> (exists h, In (ropp (eye_row i), h) (opt_rows G)) /\ exists u, In (eye_row i, u) (opt_rows G)) ->
    max_sharpe solve n mean cov G A rf = Err InfeasibleError.
Proof. exact max_sharpe_box. Qed.
Print Assumptions max_sharpe_box_always_raises_refuted.

(** A floor [w_0 >= 1/2] is silently violated. *)
Theorem max_sharpe_feasible_refuted :
  exists solve n mean cov G A rf r, exact_qp solve /\ max_sharpe solve n mean cov G A rf = Ok r /\
    0 < excess n mean rf (r_weights r) /\ ~ constrained n G A (r_weights r) /\ exists w, constrained n G A w.
Proof.
  destruct floor_violated as (r & E & Hw).
  exists (try_qp [pt2 ((1/10) / (82/100)) ((9/10) / (82/100))]), 2%nat, (pt2 (1/10) (9/10)), id2, floor_rows, bud2, 0, r.
  split; [apply try_qp_exact|]. split; [exact E|]. split; [|split].
  - destruct (sharpe_inv _ _ _ _ _ _ _ _ (try_qp_exact _) E) as (y & s & Hs & Hy & Hsum & _).
    pose proof (sumn_w 2 (r_weights r) y s Hs Hy Hsum) as S1. simpl in S1. unfold excess. rewrite dot2. unfold pt2, of_list; simpl. rewrite Hw in *. lra.
  - intros [Hc _]. specialize (Hc _ _ (or_introl eq_refl)). rewrite dot2 in Hc. unfold ropp, eye_row, delta in Hc. simpl in Hc. lra.
  - exists (pt2 1 0). split.
    + intros g h [E1|[]]. injection E1 as <- <-. rewrite dot2. unfold ropp, eye_row, delta, pt2, of_list; simpl. lra.
    + intros a b [E1|[]]. injection E1 as <- <-. rewrite dot2. unfold cst, pt2, of_list; simpl. lra.
Qed.
Print Assumptions max_sharpe_feasible_refuted.

(** Without inequalities, a negative excess return means the *lowest* Sharpe ratio of all. *)
Theorem max_sharpe_negative_is_worst_refuted :
  forall solve n mean cov A rf r, exact_qp solve -> homogeneous_set n None A ->
    max_sharpe solve n mean cov None A rf = Ok r ->
    excess n mean rf (r_weights r) < 0 -> 0 < quad n cov (r_weights r) ->
    forall w', constrained n None A w' -> sumn n w' = 1 -> 0 < quad n cov w' ->
      sharpe n mean cov rf (r_weights r) <= sharpe n mean cov rf w'.
Proof. exact max_sharpe_neg. Qed.
Print Assumptions max_sharpe_negative_is_worst_refuted.

Example max_sharpe_case : exists r,
  max_sharpe (try_qp [pt2 ((1/2) / (1/2)) ((1/2) / (1/2))]) 2 (pt2 (1/2) (1/2)) id2 lo2 bud2 0 = Ok r /\
  exact_qp (try_qp [pt2 ((1/2) / (1/2)) ((1/2) / (1/2))]) /\ homogeneous_set 2 lo2 bud2 /\
  0 < excess 2 (pt2 (1/2) (1/2)) 0 (r_weights r) /\ 0 < quad 2 id2 (r_weights r).
Proof.
  destruct sharpe_runs as (r & E & H). exists r. split; [exact E|]. split; [apply try_qp_exact|]. split; [|exact H]. split.
  - intros g h [E1|[E1|[]]]; injection E1 as <- <-; reflexivity.
  - intros a b [E1|[]]. injection E1 as <- <-. right. split; [reflexivity|]. reflexivity.
Qed.
Example max_sharpe_negative_case : exists r,
  max_sharpe (try_qp [pt2 ((-1/10) / (2/100)) ((-1/10) / (2/100))]) 2 (pt2 (-1/10) (-1/10)) id2 None bud2 0 = Ok r /\
  excess 2 (pt2 (-1/10) (-1/10)) 0 (r_weights r) < 0 /\ 0 < quad 2 id2 (r_weights r).
Proof.
  destruct neg_mean_worst as (r & E & H0 & H1). exists r. split; [exact E|]. split.
  - unfold excess. rewrite dot2, H0, H1. unfold pt2, of_list; simpl. lra.
  - rewrite quad2, H0, H1. unfold id2, delta. simpl. lra.
Qed.

(** * C25 *)
(** What the lambda variant does for any [S]: it maximises the worst expected return over the
    ellipsoid with shape factor [L'], where [L L' = sym(S) + jI] and [0 <= j <= 1e-7] ([j = 0] if [S]
    factorises).  The reported risk bounds [|L w|], and equals it when [lambda > 0]. *)
Theorem robust_lambda_worst_case :
  forall conelp chol n mean S w0 costs G A lam r, exact_cp conelp -> exact_chol chol ->
    robust_lambda conelp chol n mean S w0 costs G A lam = Ok r ->
    0 <= lam /\ exists L j, 0 <= j <= 1 / 10000000 /\ (chol n (symmetrise S) <> None -> j = 0) /\
      is_cholesky n (plus_jitter (symmetrise S) j) L /\
      constrained n G A (r_weights r) /\ r_return r = dot n mean (r_weights r) /\
      norm2 n (mv n L (r_weights r)) <= r_risk r /\ (0 < lam -> r_risk r = norm2 n (mv n L (r_weights r))) /\
      forall w v v', constrained n G A w ->
        worst_return n mean (transpose L) lam (r_weights r) v -> worst_return n mean (transpose L) lam w v' -> v' <= v.
Proof.
  intros conelp chol n mean S w0 costs G A lam r Hs Hch H. unfold robust_lambda, robust_init in H.
  apply bind_ok in H as (L & EL & H). destruct (cholesky_pd_l chol n S L Hch EL) as (j & Hj & Hj0 & HL).
  assert (H' : exists hc, (if Rltb lam 0 then Err ValueError else robust_socp conelp n mean L hc lam None G A) = Ok r).
  { destruct w0, costs; try (eexists; exact H). unfold check_shapes in H. apply guard_ok in H as [_ H]. eexists; exact H. }
  clear H. destruct H' as [hc H]. destruct (Rltb_spec lam 0) as [|Hl]; [discriminate|]. apply Rnot_lt_le in Hl.
  destruct (robust_socp_l conelp n mean L hc lam None G A r Hs Hl H) as (_ & E1 & [[Hc _] Hm] & E2 & E3 & _).
  split; [exact Hl|]. exists L, j. repeat (split; [assumption|]). intros w v v' Hw Hv Hv'.
  pose proof (worst_return_l n mean (transpose L) lam (r_weights r) Hl) as K1. pose proof (worst_return_l n mean (transpose L) lam w Hl) as K2.
  rewrite (worst_return_unique _ _ _ _ _ _ _ Hv K1), (worst_return_unique _ _ _ _ _ _ _ Hv' K2).
  specialize (Hm w (conj Hw I)). change (transpose (transpose L)) with L. lra.
Qed.
Print Assumptions robust_lambda_worst_case.

(** The gamma variant adds the cap [|L w| <= sqrt(gamma_sigma_sq)]. *)
Theorem robust_gamma_worst_case :
  forall conelp chol n mean S w0 costs G A gm gs r, exact_cp conelp -> exact_chol chol ->
    robust_gamma conelp chol n mean S w0 costs G A gm gs = Ok r ->
    0 <= gm /\ 0 <= gs /\ exists L j, 0 <= j <= 1 / 10000000 /\ (chol n (symmetrise S) <> None -> j = 0) /\
      is_cholesky n (plus_jitter (symmetrise S) j) L /\
      r_return r = dot n mean (r_weights r) /\ norm2 n (mv n L (r_weights r)) <= r_risk r <= sqrt gs /\
      minimises (fun w => constrained n G A w /\ norm2 n (mv n L w) <= sqrt gs)
        (fun w => - dot n mean w + gm * norm2 n (mv n L w)) (r_weights r).
Proof.
  intros conelp chol n mean S w0 costs G A gm gs r Hs Hch H. unfold robust_gamma, robust_init in H.
  apply bind_ok in H as (L & EL & H). destruct (cholesky_pd_l chol n S L Hch EL) as (j & Hj & Hj0 & HL).
  assert (H' : exists hc, (if Rltb gm 0 || Rltb gs 0 then Err ValueError else robust_socp conelp n mean L hc gm (Some gs) G A) = Ok r).
  { destruct w0, costs; try (eexists; exact H). unfold check_shapes in H. apply guard_ok in H as [_ H]. eexists; exact H. }
  clear H. destruct H' as [hc H]. destruct (Rltb_spec gm 0) as [|Hl]; [discriminate|]. destruct (Rltb_spec gs 0) as [|Hg]; [discriminate|].
  simpl in H. apply Rnot_lt_le in Hl, Hg.
  destruct (robust_socp_l conelp n mean L hc gm (Some gs) G A r Hs Hl H) as (_ & E1 & Hm & E2 & _ & E3).
  split; [exact Hl|]. split; [exact Hg|]. exists L, j. repeat (split; [first [assumption|split; assumption]|]). exact Hm.
Qed.
Print Assumptions robust_gamma_worst_case.

(** For diagonal [S] the norm is the documented [sqrt(w'(S + jI)w)]. *)
Theorem robust_norm_diagonal :
  forall n S j L w, is_cholesky n (plus_jitter (symmetrise S) j) L ->
    (forall i k, (i < n)%nat -> (k < n)%nat -> i <> k -> S i k = 0) ->
    norm2 n (mv n L w) = sqrt (quad n S w + j * dot n w w).
Proof.
  intros n S j L w HL HS. rewrite (norm_diag n (plus_jitter (symmetrise S) j) L w HL).
  - f_equal. unfold quad, dot. rewrite <- sumn_scale, <- sumn_plus. apply sumn_ext. intros i Hi.
    rewrite (sumn_ext n (fun k => plus_jitter (symmetrise S) j i k * w i * w k) (fun k => S i k * w i * w k + j * (delta i k * (w i * w k)))).
    + rewrite sumn_plus. f_equal. rewrite sumn_scale. f_equal. rewrite (sumn_delta_r n i (fun k => w i * w k)) by exact Hi. reflexivity.
    + intros k Hk. unfold plus_jitter, symmetrise. destruct (Nat.eq_dec i k) as [->|Hne]; [field|].
      rewrite (HS i k), (HS k i) by auto. lra.
  - intros i k Hi Hk Hne. unfold plus_jitter, symmetrise, delta. rewrite (HS i k), (HS k i) by auto.
    destruct (Nat.eqb_spec i k); [contradiction|lra].
Qed.
Print Assumptions robust_norm_diagonal.

(** For correlated [S] it is not: with [S = [[1, .6], [.6, 1]]] and zero means the portfolio that
    maximises the worst case over the documented ellipsoid is (1/2, 1/2), which the optimiser misses. *)
Theorem robust_worst_case_refuted :
  exists conelp chol n mean S A lam r w, exact_cp conelp /\ exact_chol chol /\ chol n (symmetrise S) <> None /\
    robust_lambda conelp chol n mean S None None None A lam = Ok r /\
    constrained n None A w /\
    dot n mean (r_weights r) - lam * sqrt (quad n S (r_weights r)) < dot n mean w - lam * sqrt (quad n S w).
Proof.
  exists (try_cp [of_list [2/13; 11/13; cor_t]]), (try_chol 2 cor_L), 2%nat, zrow, cor_S, bud2, 1, (mkRes (of_list [2/13; 11/13; cor_t]) (dot 2 zrow (of_list [2/13; 11/13; cor_t])) cor_t), (pt2 (1/2) (1/2)).
  split; [apply try_cp_exact|]. split; [apply try_chol_exact|]. split.
  { unfold try_chol. destruct (emdec _) as [|Hn]; [discriminate|]. exfalso. apply Hn, cor_factor. intros; apply cor_sym; auto. }
  split; [exact cor_runs|]. split.
  - split; [intros g h []|]. intros a b [E1|[]]. injection E1 as <- <-. rewrite dot2. unfold cst, pt2, of_list; simpl. lra.
  - cbn [r_weights]. rewrite !quad2, !dot_zrow. unfold cor_S, pt2, of_list; simpl.
    match goal with |- 0 - 1 * sqrt ?a < 0 - 1 * sqrt ?b => assert (sqrt b < sqrt a) by (apply sqrt_lt_1; lra); lra end.
Qed.
Print Assumptions robust_worst_case_refuted.

(** Negative parameters are rejected. *)
Theorem robust_negative_rejected :
  forall conelp chol n mean S G A L, cholesky_pd chol n S = Ok L ->
    (forall lam, lam < 0 -> robust_lambda conelp chol n mean S None None G A lam = Err ValueError) /\
    (forall gm gs, gm < 0 \/ gs < 0 -> robust_gamma conelp chol n mean S None None G A gm gs = Err ValueError).
Proof.
  intros conelp chol n mean S G A L EL. unfold robust_lambda, robust_gamma, robust_init. rewrite EL. cbn [bind]. split.
  - intros lam Hl. destruct (Rltb_spec lam 0); [reflexivity|lra].
  - intros gm gs Hg. destruct (Rltb_spec gm 0); [reflexivity|]. destruct (Rltb_spec gs 0); [reflexivity|lra].
Qed.
Print Assumptions robust_negative_rejected.

Example robust_case : exact_cp (try_cp [of_list [1/2; 1/2; sqrt (1/2)]]) /\ exact_chol (try_chol 2 id2) /\
  robust_lambda (try_cp [of_list [1/2; 1/2; sqrt (1/2)]]) (try_chol 2 id2) 2 zrow id2 None None None bud2 1 =
  Ok (mkRes (of_list [1/2; 1/2; sqrt (1/2)]) (dot 2 zrow (of_list [1/2; 1/2; sqrt (1/2)])) (sqrt (1/2))).
Proof. split; [apply try_cp_exact|]. split; [apply try_chol_exact|exact robust_runs]. Qed.

(** * C57: RobustOptimizer cannot be used with proportional costs at all. *)
Theorem robust_costs_always_raise_refuted :
  forall conelp chol n mean S a b G A, 
    (forall lam, exists e, robust_lambda conelp chol n mean S (Some a) (Some b) G A lam = Err e) /\
    (forall gm gs, exists e, robust_gamma conelp chol n mean S (Some a) (Some b) G A gm gs = Err e) /\
    (forall lams, exists e, robust_frontier conelp chol n mean S (Some a) (Some b) G A lams = Err e) /\
    (forall L lam, cholesky_pd chol n S = Ok L -> robust_lambda conelp chol n mean S (Some a) (Some b) G A lam = Err ValueError).
Proof.
  intros conelp chol n mean S a b G A.
  assert (M : forall L lams, exists e, (let* rs := mapM (fun lam => if Rltb lam 0 then Err ValueError else robust_socp conelp n mean L true lam None G A) lams in
    guard (negb (length rs =? 0)%nat) ValueError (Ok (map r_return rs, map r_risk rs, map r_weights rs))) = Err e).
  { intros L [|l ls]; [eexists; reflexivity|]. simpl. destruct (Rltb l 0); eexists; reflexivity. }
  unfold robust_lambda, robust_gamma, robust_frontier, robust_init.
  destruct (cholesky_pd chol n S) as [L|e] eqn:EL; cbn [bind].
  - unfold check_shapes, guard. destruct (length a =? length b)%nat.
    + split; [intros lam; destruct (Rltb lam 0); eexists; reflexivity|]. split; [intros gm gs; destruct (Rltb gm 0 || Rltb gs 0); eexists; reflexivity|].
      split; [intros lams; apply M|]. intros L0 lam _. destruct (Rltb lam 0); reflexivity.
    + repeat split; intros; try (eexists; reflexivity). 
  - repeat split; intros; try (eexists; reflexivity). discriminate.
Qed.
Print Assumptions robust_costs_always_raise_refuted.
Example robust_costs_case : cholesky_pd (try_chol 2 id2) 2 id2 = Ok id2.
Proof. apply id_chol. reflexivity. Qed.

(** * C56 *)
(** The Cholesky helper: the factor is that of [sym(M) + jI] with [0 <= j <= 1e-7]; nothing is added
    when [sym(M)] factorises; and it gives up only after the plain matrix and the six jitters
    1e-12, ..., 1e-7 all failed. *)
Theorem cholesky_jitter_bounded :
  forall chol n M, exact_chol chol ->
    (forall L, cholesky_pd chol n M = Ok L ->
       exists j, 0 <= j <= 1 / 10000000 /\ (chol n (symmetrise M) <> None -> j = 0) /\
         is_cholesky n (plus_jitter (symmetrise M) j) L) /\
    (forall e, cholesky_pd chol n M = Err e ->
       e = RuntimeError /\ chol n (symmetrise M) = None /\
       forall k, (k < 6)%nat -> chol n (plus_jitter (symmetrise M) (1 / 1000000000000 * 10 ^ k)) = None).
Proof.
  intros chol n M Hc. split; [intros L; exact (cholesky_pd_l chol n M L Hc)|].
  intros e H. destruct (cholesky_fail_l chol n M e H) as (H1 & H2 & H3). auto.
Qed.
Print Assumptions cholesky_jitter_bounded.

(** * C26 *)
(** The solution satisfies the documented relaxed model, with the marginal risks [Sigma x], and no
    point of that model has a smaller [psi - gamma].  Portfolio risk is measured as [|L x|]. *)
Theorem rrp_solution_correct :
  forall conelp lp chol n mean cov0 G A rb lam target mint r, exact_cp conelp -> exact_chol chol ->
    rrp_solve conelp lp chol n mean cov0 G A rb lam target mint = Ok r ->
    exists L bud j, risk_budgets n rb = Ok bud /\ 0 <= lam /\ 0 <= j <= 1 / 10000000 /\
      is_cholesky n (plus_jitter (symmetrise (symmetrise cov0)) j) L /\
      rrp_point n mean (symmetrise cov0) L bud lam G A (rr_target r) (rr_weights r) (rr_psi r) (rr_gamma r) (rr_rho r) /\
      (forall i, (i < n)%nat -> rr_marginal r i = mv n (symmetrise cov0) (rr_weights r) i) /\
      rr_objective r = rr_psi r - rr_gamma r /\
      (forall x psi gamma rho, rrp_point n mean (symmetrise cov0) L bud lam G A (rr_target r) x psi gamma rho ->
         rr_objective r <= psi - gamma).
Proof.
  intros conelp lp chol n mean cov0 G A rb lam target mint r Hs Hch H.
  destruct (rrp_solve_inv conelp lp chol n mean cov0 G A rb lam target mint r Hs Hch H) as (L & bud & j & H1 & _ & H3 & H4 & _ & H6 & _ & H8 & H9 & H10 & H11).
  exists L, bud, j. repeat (split; [assumption|]). exact H11.
Qed.
Print Assumptions rrp_solution_correct.

(** The budgets are proportional to the requested shares and sum to one up to 2e-5. *)
Theorem rrp_budgets :
  forall n rb bud, risk_budgets n rb = Ok bud -> n <> 0%nat ->
    exists k, 0 < k /\ (forall i, (i < n)%nat -> bud i = k * share n rb i /\ 0 < share n rb i) /\
      Rabs (sumn n bud - 1) <= 2 / 100000.
Proof. exact risk_budgets_l. Qed.
Print Assumptions rrp_budgets.

(** For uncorrelated assets, no regulator and no extra constraints the relaxation is exact: risk
    contributions are in proportion to the requested shares. *)
Theorem rrp_uncorrelated_exact :
  forall conelp lp chol n mean cov rb mint r, exact_cp conelp -> exact_chol chol -> (2 <= n)%nat ->
    (forall i, (i < n)%nat -> 0 < cov i i) ->
    (forall i j, (i < n)%nat -> (j < n)%nat -> i <> j -> cov i j = 0) ->
    chol n (symmetrise (symmetrise cov)) <> None ->
    rrp_solve conelp lp chol n mean cov None None rb 0 None mint = Ok r ->
    (forall i, (i < n)%nat -> 0 < rr_weights r i) /\ sumn n (rr_weights r) = 1 /\
    (forall i j, (i < n)%nat -> (j < n)%nat ->
       risk_contribution n cov (rr_weights r) i * share n rb j = risk_contribution n cov (rr_weights r) j * share n rb i) /\
    rr_objective r < 0.
Proof. exact rrp_diag. Qed.
Print Assumptions rrp_uncorrelated_exact.

(** For correlated assets it is not equal risk contribution: covariance [[1, 4], [4, 25]]. *)
Theorem rrp_equal_contribution_refuted :
  exists cov, psd 2 cov /\ forall conelp lp chol mean mint r, exact_cp conelp -> exact_chol chol ->
    chol 2%nat (symmetrise (symmetrise cov)) <> None ->
    rrp_solve conelp lp chol 2 mean cov None None None 0 None mint = Ok r ->
    risk_contribution 2 cov (rr_weights r) 0 <> risk_contribution 2 cov (rr_weights r) 1.
Proof.
  exists erc_cov. split.
  - intros w. rewrite quad2. unfold erc_cov; simpl. pose proof (Rle_0_sqr (w 0%nat + 4 * w 1%nat)) as K. pose proof (Rle_0_sqr (w 1%nat)) as K2. unfold Rsqr in *. lra.
  - intros conelp lp chol mean mint r. apply rrp_erc_not.
Qed.
Print Assumptions rrp_equal_contribution_refuted.

Example rrp_case : exact_cp (try_cp [rrp_sol]) /\ exact_chol (try_chol 2 id2) /\ exists r,
  rrp_solve (try_cp [rrp_sol]) (fun _ => None) (try_chol 2 id2) 2 zrow id2 None None None 0 None None = Ok r /\
  rr_weights r 0%nat = 1/2 /\ rr_weights r 1%nat = 1/2.
Proof. split; [apply try_cp_exact|]. split; [apply try_chol_exact|exact rrp_runs]. Qed.

(** * C58 *)
(** A requested return target is used as given when it is below the largest feasible return by
    more than [tol = max(1e-8, 1e-3 |max|)], and clipped to [max - tol] otherwise; a floor wins over
    both.  The largest return is over the long-only portfolios that satisfy the constraints. *)
Theorem rrp_target_clipping :
  forall conelp lp chol n mean cov0 G A rb lam t mint r, exact_cp conelp -> exact_cp lp -> exact_chol chol ->
    rrp_solve conelp lp chol n mean cov0 G A rb lam (Some t) mint = Ok r ->
    exists m c, rr_max r = Some m /\ rr_target r = Some c /\ is_max (return_set n G A) (dot n mean) m /\
      let tol := Rmax (1 / 100000000) (1 / 1000 * Rabs m) in
      c <= dot n mean (rr_weights r) /\
      (t < m - tol -> (forall f, mint = Some f -> f <= t) -> c = t) /\
      (m - tol <= t -> (forall f, mint = Some f -> f <= m - tol) -> c = m - tol) /\
      (forall f, mint = Some f -> f <= c) /\ (c <= m - tol \/ mint = Some c).
Proof.
  intros conelp lp chol n mean cov0 G A rb lam t mint r Hs Hl Hch H.
  destruct (rrp_solve_inv conelp lp chol n mean cov0 G A rb lam (Some t) mint r Hs Hch H) as (L & bud & j & _ & _ & _ & _ & _ & _ & (m & E1 & E2 & E3) & H8 & _).
  exists m, (clip_target m t mint). split; [exact E3|]. split; [exact E2|]. split; [exact (return_lp_max lp n mean G A m Hl E1)|].
  intros tol. split; [|apply clip_l]. pose proof (rp_target _ _ _ _ _ _ _ _ _ _ _ _ _ H8) as K. rewrite E2 in K. exact K.
Qed.
Print Assumptions rrp_target_clipping.

(** When the user's only equalities are homogeneous (e.g. a neutrality row), the return programme has
    no budget row: with any profitable direction it is unbounded and a target always raises. *)
Theorem rrp_target_homogeneous_equalities_raise_refuted :
  forall conelp lp chol n mean cov0 a rb lam t mint x, exact_cp lp ->
    (forall r b, In (r, b) a -> b = 0) -> return_set n None (Some a) x -> 0 < dot n mean x ->
    exists e, rrp_solve conelp lp chol n mean cov0 None (Some a) rb lam (Some t) mint = Err e.
Proof.
  intros conelp lp chol n mean cov0 a rb lam t mint x Hl Hb Hx Hm. unfold rrp_solve.
  destruct (cholesky_pd chol n (symmetrise cov0)) as [L|e]; cbn [bind]; [|eexists; reflexivity].
  destruct (risk_budgets n rb) as [bud|e]; cbn [bind]; [|eexists; reflexivity].
  destruct (Rltb lam 0); [eexists; reflexivity|].
  rewrite (return_lp_unbounded lp n mean a x Hl Hb Hx Hm). eexists. reflexivity.
Qed.
Print Assumptions rrp_target_homogeneous_equalities_raise_refuted.
Example rrp_homogeneous_case : return_set 2 None (Some [(pt2 1 (-1), 0)]) (pt2 1 1) /\ 0 < dot 2 (pt2 1 1) (pt2 1 1).
Proof.
  rewrite dot2. unfold return_set, pt2, of_list; simpl. split; [|lra]. split; [intros [|[|[|i]]] Hi; simpl; lra|]. split; [tauto|].
  intros r b [E|[]]. injection E as <- <-. rewrite dot2. simpl. lra.
Qed.
