(** Model of [PortfolioWrapper] (pyvallocation/portfolioapi.py:694-2041): constraint and cost
    resolution, and the methods that call an optimiser and report on its result.

    The solvers, the Cholesky routine, [argsort] and the random scenario generator are parameters.
    Where numpy would give NaN for the square root of a negative variance the model gives 0. *)
From Coq Require Import ZArith String.
From Verif Require Import RBase QpBase SortLib RiskModel ConsModel MomModel DistModel ConvModel OptModel FrModel.
Open Scope R_scope.
Open Scope list_scope.

Record env := mkEnv {
  e_qp : qp -> option vec; e_lp : cp -> option vec; e_cone : cp -> option vec;
  e_chol : nat -> mat -> option mat; e_sort : list R -> list nat }.

(** The [constraints] argument: None, a [Constraints] object or a dict. *)
Inductive cons_arg := CNone | CObj (c : constraints) | CDict (d : list entry).

(** portfolioapi.py:231-241 [TransactionCosts], flattened to one dimension as every use does. *)
Record costs := mkCosts { k_iw : list R; k_mic : option (list R); k_pc : option (list R) }.

(** portfolioapi.py:738-748: the wrapper's attributes. *)
Record wrapper := mkW {
  w_dist : dist; w_mats : matrices; w_iw : option (list R); w_mic : option (list R);
  w_pc : option (list R); w_log : bool; w_unc : option mat }.

(** The constraints a constructor call asks for (portfolioapi.py:794-802). *)
Definition asked (arg : cons_arg) (long_only : bool) (total : option pynum) (bounds : option bounds_like) : constraints :=
  match arg with
  | CObj c => c
  | CDict d => from_dict d
  | CNone => mkC long_only total bounds None None None None
  end.

(** portfolioapi.py:1114-1139 [_apply_transaction_costs]. *)
Definition has_len (n : nat) (o : option (list R)) : bool :=
  match o with Some l => Nat.eqb (List.length l) n | None => true end.
Definition apply_costs (n : nat) (k : option costs) : res (option (list R) * option (list R) * option (list R)) :=
  match k with
  | None => Ok (None, None, None)
  | Some k => if (Nat.eqb (List.length (k_iw k)) n && has_len n (k_mic k) && has_len n (k_pc k))%bool
              then Ok (Some (k_iw k), k_mic k, k_pc k) else Err ValueError
  end.

(** portfolioapi.py:712-749 [__init__] with 791-804 [_setup_constraints]. *)
Definition make_wrapper (d : dist) (arg : cons_arg) (k : option costs) (long_only : bool)
  (total : option pynum) (bounds : option bounds_like) : res wrapper :=
  let* (m, _) := to_matrices (asked arg long_only total bounds) (Z.of_nat (d_N d)) in
  let* (iw, mic, pc) := apply_costs (d_N d) k in
  Ok (mkW d m iw mic pc false None).

(** portfolioapi.py:1141-1176 [_resolve_constraints]. *)
Definition resolve_mats (w : wrapper) (arg : cons_arg) : res matrices :=
  match arg with
  | CObj c => let* (m, _) := to_matrices c (Z.of_nat (d_N (w_dist w))) in Ok m
  | CDict d => let* (m, _) := to_matrices (from_dict d) (Z.of_nat (d_N (w_dist w))) in Ok m
  | CNone => match m_G (w_mats w), m_A (w_mats w) with
             | None, None => let* (m, _) := to_matrices default_constraints (Z.of_nat (d_N (w_dist w))) in Ok m
             | _, _ => Ok (w_mats w)
             end
  end.
Definition resolve_costs (w : wrapper) (k : option costs) : option (list R) * option (list R) * option (list R) :=
  match k with Some k => (Some (k_iw k), k_mic k, k_pc k) | None => (w_iw w, w_mic w, w_pc w) end.

(** [G], [h] as the rows the optimisers read.  A row with a NaN or infinite entry, on which cvxopt
    fails, becomes a row nothing satisfies. *)
Definition row_of (bad : R) (row : list pyf) (rhs : R) : vec * R :=
  if forallb p_fin row then (of_list (map val row), rhs) else (zrow, bad).
Definition rows_of (bad : R) (M : option (list (list pyf))) (v : option (list R)) : option rows :=
  match M, v with Some M, Some v => Some (map2 (row_of bad) M v) | _, _ => None end.
Definition rows_G (m : matrices) : option rows := rows_of (-1) (m_G m) (m_h m).
Definition rows_A (m : matrices) : option rows := rows_of 1 (m_A m) (m_b m).

(** portfolioapi.py:767-770 [_require_mu_cov]. *)
Definition require_mu_cov (w : wrapper) : res (vec * mat) :=
  match d_mu (w_dist w), d_cov (w_dist w) with
  | Some m, Some c => Ok (as_vec m, as_mat (d_N (w_dist w)) c)
  | _, _ => Err ValueError
  end.
(** portfolioapi.py:756-765 [_report_mu_cov]. *)
Definition report (w : wrapper) (mc : vec * mat) : vec * mat :=
  if w_log w then log2simple (fst mc) (snd mc) else mc.

Definition vlist (n : nat) (v : vec) : list R := map v (seq 0 n).
Definition vol (n : nat) (cov : mat) (x : vec) : R := sqrt (quad n cov x).

(** Scenario rows and probabilities stored on the distribution (777-782, 1528-1533). *)
Definition uniform_probs (T : nat) : res nd :=
  if Nat.eqb T 0 then Err ValueError else Ok (mkND [T] (fun _ => Fin (1 / INR T))).
Definition scen_rows (N T : nat) (X : nat -> vec) : list (list R) := map (fun t => vlist N (X t)) (seq 0 T).
Definition stored_scen (w : wrapper) : option (nat * (nat -> vec) * vec) :=
  match d_scen (w_dist w) with
  | None => None
  | Some X =>
      let T := hd 0%nat (nd_shape X) in
      match (match d_probs (w_dist w) with Some p => Ok p | None => uniform_probs T end) with
      | Ok p => Some (T, as_mat (d_N (w_dist w)) X, as_vec p)
      | Err _ => None
      end
  end.

(** portfolioapi.py:772-788 [_cvar_overlay]: absolute CVaR at 95%, skipped on any exception. *)
Definition cvar_overlay (E : env) (w : wrapper) (cols : list vec) : list (string * list R) :=
  match stored_scen w with
  | None => []
  | Some (T, X, p) =>
      match portfolio_cvar (e_sort E) (map (vlist (d_N (w_dist w))) cols) (scen_rows (d_N (w_dist w)) T X)
              (Some (vlist T p)) (Some (95 / 100)) DNone with
      | Ok c => [("CVaR (95%)"%string, map Rabs c)]
      | Err _ => []
      end
  end.

(** portfolioapi.py:1290-1331 [variance_frontier]. *)
Definition variance_frontier (E : env) (w : wrapper) (num : Z) (arg : cons_arg) (k : option costs) : res frontier_t :=
  let N := d_N (w_dist w) in
  let* mc := require_mu_cov w in
  let* m := resolve_mats w arg in
  let '(iw, mic, _) := resolve_costs w k in
  let* cols := mv_frontier (e_qp E) (e_lp E) N (fst mc) (snd mc) (rows_G m) (rows_A m) iw mic num in
  let r := report w mc in
  make_frontier N (map (vlist N) cols) (map (dot N (fst r)) cols) (map (vol N (snd r)) cols)
    "Volatility" (d_names (w_dist w)) (cvar_overlay E w cols).

(** What the single-portfolio methods return. *)
Record portfolio := mkPf { p_names : option (list string); p_weights : list R; p_return : R; p_risk : R }.

(** [except RuntimeError: raise InfeasibleOptimizationError] (1604-1607, 1661-1664). *)
Definition runtime_err (e : pyerr) : bool := match e with RuntimeError | InfeasibleError => true | _ => false end.
Definition as_infeasible {A} (r : res A) : res A :=
  match r with Ok a => Ok a | Err e => if runtime_err e then Err InfeasibleError else Err e end.

(** portfolioapi.py:1566-1619 [min_variance_at_return]. *)
Definition min_variance_at_return (E : env) (w : wrapper) (target : R) (arg : cons_arg) (k : option costs) : res portfolio :=
  let N := d_N (w_dist w) in
  let* mc := require_mu_cov w in
  let* m := resolve_mats w arg in
  let '(iw, mic, _) := resolve_costs w k in
  let* x := (let* (P, q) := mv_terms N (snd mc) iw mic in
             as_infeasible (mv_solve_target (e_qp E) N (fst mc) P q (rows_G m) (rows_A m) (Some target))) in
  let r := report w mc in
  Ok (mkPf (d_names (w_dist w)) (vlist N x) (dot N (fst r) x) (vol N (snd r) x)).

(** portfolioapi.py:1178-1239 [_scenario_inputs] with [n_simulations = 5000]; [sim t] is the [t]-th
    draw of the multivariate normal generator. *)
Definition clean_probs (p : nd) : res vec :=
  if nd_any p_lt0 p then Err ValueError
  else match nd_sum p with
       | Fin s => if Rleb s 0 then Err ValueError
                  else Ok (if risclose s 1 then as_vec p else fun k => as_vec p k / s)
       | _ => Err ValueError
       end.
Definition scenario_inputs (sim : nat -> vec) (w : wrapper) : res (nat * (nat -> vec) * vec * vec) :=
  let N := d_N (w_dist w) in
  let* (T, X, p0) :=
    match d_scen (w_dist w) with
    | None => match d_mu (w_dist w), d_cov (w_dist w) with
              | Some _, Some _ =>
                  let* p := uniform_probs (5 * 1000) in
                  Ok ((5 * 1000)%nat, (fun t i => if w_log w then exp (sim t i) - 1 else sim t i), p)
              | _, _ => Err ValueError
              end
    | Some X => let T := hd 0%nat (nd_shape X) in
                let* p := match d_probs (w_dist w) with Some p => Ok p | None => uniform_probs T end in
                Ok (T, as_mat N X, p)
    end in
  let* p := clean_probs p0 in
  let* mu := match d_mu (w_dist w) with
             | None => Ok (fun i => sumn T (fun t => X t i * p t))
             | Some m => if w_log w then
                           match d_cov (w_dist w) with
                           | Some c => Ok (fst (log2simple (as_vec m) (as_mat N c)))
                           | None => Err ValueError
                           end
                         else Ok (as_vec m)
             end in
  Ok (T, X, p, mu).

Definition abs_cvar (E : env) (N T : nat) (X : nat -> vec) (p : vec) (alpha : R) (cols : list vec) : res (list R) :=
  let* c := portfolio_cvar (e_sort E) (map (vlist N) cols) (scen_rows N T X) (Some (vlist T p)) (Some (1 - alpha)) DNone in
  Ok (map Rabs c).

(** portfolioapi.py:1621-1675 [min_cvar_at_return]. *)
Definition min_cvar_at_return (E : env) (sim : nat -> vec) (w : wrapper) (target alpha : R) (arg : cons_arg)
  (k : option costs) : res portfolio :=
  let N := d_N (w_dist w) in
  let* (T, X, p, mu) := scenario_inputs sim w in
  let* m := resolve_mats w arg in
  let '(iw, _, pc) := resolve_costs w k in
  let tc := turnover iw pc in
  let* x := cvar_init N tc (as_infeasible (cvar_solve_target (e_lp E) N T X p alpha tc (rows_G m) (rows_A m) (Some target))) in
  let* risk := abs_cvar E N T X p alpha [x] in
  Ok (mkPf (d_names (w_dist w)) (vlist N x) (dot N mu x) (hd 0 risk)).

(** [np.cov(scenarios.T, aweights=p, bias=True)]; zero-dimensional for one asset, on which the
    following product fails and the overlay is skipped. *)
Definition scen_cov (T : nat) (X : nat -> vec) (p : vec) : mat := fun i j =>
  let m k := sumn T (fun t => X t k * p t) / sumn T p in
  sumn T (fun t => (X t i - m i) * (X t j - m j) * p t) / sumn T p.

(** portfolioapi.py:1333-1423 [cvar_frontier]; [lab] and [rawlab] render the two labels holding alpha. *)
Definition cvar_frontier_w (E : env) (sim : nat -> vec) (lab rawlab : R -> string) (w : wrapper) (num : Z) (alpha : R)
  (enforce : bool) (arg : cons_arg) (k : option costs) : res frontier_t :=
  let N := d_N (w_dist w) in
  let* (T, X, p, mu) := scenario_inputs sim w in
  let* m := resolve_mats w arg in
  let '(iw, _, pc) := resolve_costs w k in
  let* cols := OptModel.cvar_frontier (e_lp E) N T X p alpha iw pc (rows_G m) (rows_A m) num in
  let* risks := abs_cvar E N T X p alpha cols in
  let vols := map (vol N (scen_cov T X p)) cols in
  let '(cols', ret', risk', vols', raw) :=
    cvar_post (e_sort E) enforce (map (vlist N) cols) (map (dot N mu) cols) risks vols in
  make_frontier N cols' ret' risk' (lab alpha) (d_names (w_dist w))
    ((if Nat.eqb N 1 then [] else [("Volatility"%string, vols')]) ++ [(rawlab alpha, raw)]).

(** [np.linspace(lo, hi, num)] for at least two points. *)
Definition linspace (lo hi : R) (num : Z) : list R := map (grid_point lo hi num) (seq 0 (Z.to_nat num)).

(** portfolioapi.py:1471-1488: the grid of penalties. *)
Definition lambda_grid (num : Z) (max_lambda : R) (lams : option (list R)) : res (list R) :=
  match lams with
  | Some l => if Nat.eqb (List.length l) 0 then Err ValueError
              else if existsb (fun x => Rltb x 0) l then Err ValueError else Ok l
  | None => if (num <=? 0)%Z then Err ValueError
            else if Rltb max_lambda 0 then Err ValueError
            else if (num =? 1)%Z then Ok [max_lambda]
            else if Reqb max_lambda 0 then Ok [0]
            else Ok (linspace 0 max_lambda num)
  end.

(** The [return_cov] argument: an array, or a DataFrame with equal index and columns. *)
Inductive cov_ref := CArr (a : nd) | CFrame (names : list string) (a : nd).
Fixpoint find_pos (x : string) (l : list string) : option nat :=
  match l with [] => None | y :: l' => if String.eqb y x then Some 0%nat else option_map S (find_pos x l') end.
(** portfolioapi.py:1512-1520: realigned to the asset names; [None]: the overlay is skipped. *)
Definition square_of (n : nat) (a : nd) : option mat :=
  match nd_shape a with [r; c] => if (Nat.eqb r n && Nat.eqb c n)%bool then Some (as_mat n a) else None | _ => None end.
Definition cov_ref_mat (N : nat) (names : option (list string)) (c : cov_ref) : option mat :=
  match c, names with
  | CArr a, _ => square_of N a
  | CFrame _ a, None => square_of N a
  | CFrame cn a, Some l =>
      match mapM (fun x => match find_pos x cn with Some i => Ok i | None => Err KeyError end) l, square_of (List.length cn) a with
      | Ok pos, Some M => if Nat.eqb (List.length pos) N then Some (fun i j => M (nth i pos 0%nat) (nth j pos 0%nat)) else None
      | _, _ => None
      end
  end.

(** portfolioapi.py:1507-1544: overlays of the robust frontier. *)
Definition robust_overlays (E : env) (w : wrapper) (cov : mat) (return_cov : option cov_ref) (cols : list vec)
  : list (string * list R) :=
  let N := d_N (w_dist w) in
  let v1 := match return_cov, w_unc w with
            | Some c, _ => cov_ref_mat N (d_names (w_dist w)) c
            | None, Some _ => Some cov
            | None, None => None
            end in
  let v := match v1 with
           | Some M => Some M
           | None => match stored_scen w with
                     | Some (T, X, p) => if Nat.eqb N 1 then None else Some (scen_cov T X p)
                     | None => None
                     end
           end in
  match v with Some M => [("Volatility"%string, map (vol N M) cols)] | None => [] end ++ cvar_overlay E w cols.

Definition robust_measure : string := "Estimation Risk (||\Sigma'^1/^2w||_2)".

(** portfolioapi.py:1425-1564 [robust_lambda_frontier]: the frontier and its [metadata] (the penalty
    of every column).  The stable sort is modelled by any sorting permutation. *)
Definition robust_lambda_frontier (E : env) (w : wrapper) (num : Z) (max_lambda : R) (lams : option (list R))
  (return_cov : option cov_ref) (arg : cons_arg) (k : option costs) : res (frontier_t * list R) :=
  let N := d_N (w_dist w) in
  let* mc := require_mu_cov w in
  let* m := resolve_mats w arg in
  let '(iw, _, pc) := resolve_costs w k in
  let* grid := lambda_grid num max_lambda lams in
  let unc := match w_unc w with Some u => u | None => snd mc end in
  let* (_, risks, cols) := robust_frontier (e_cone E) (e_chol E) N (fst mc) unc iw pc (rows_G m) (rows_A m) grid in
  let rets := map (dot N (fst (report w mc))) cols in
  let alt := robust_overlays E w (snd mc) return_cov cols in
  let order := if (1 <? List.length risks)%nat then e_sort E risks else seq 0 (List.length risks) in
  let* f := make_frontier N (take [] (map (vlist N) cols) order) (take 0 rets order) (take 0 risks order)
              robust_measure (d_names (w_dist w)) (map (fun kv => (fst kv, take 0 (snd kv) order)) alt) in
  Ok (f, take 0 grid order).

(** portfolioapi.py:1988-2041 [solve_robust_gamma_portfolio]. *)
Definition solve_robust_gamma (E : env) (w : wrapper) (gamma_mu gamma_sigma_sq : R) (arg : cons_arg) (k : option costs) : res portfolio :=
  let N := d_N (w_dist w) in
  let* mc := require_mu_cov w in
  let* m := resolve_mats w arg in
  let '(iw, _, pc) := resolve_costs w k in
  let unc := match w_unc w with Some u => u | None => snd mc end in
  let* r := robust_gamma (e_cone E) (e_chol E) N (fst mc) unc iw pc (rows_G m) (rows_A m) gamma_mu gamma_sigma_sq in
  let risk := r_risk r * r_risk r in
  Ok (mkPf (d_names (w_dist w)) (vlist N (r_weights r)) (r_return r) (if Rltb gamma_sigma_sq risk then gamma_sigma_sq else risk)).

(** ** Relaxed risk parity *)

(** portfolioapi.py:1282-1284: the next, smaller target after a failure. *)
Definition next_target (lower cand : R) : R :=
  let c := 1 / 2 * (cand + lower) in
  if Rleb c (lower + 1 / 1000000) then lower else c.

(** portfolioapi.py:1270-1286: up to [k] tries; [None] when all raised RuntimeError.
    [solve target min_target] is [optimizer.solve]. *)
Fixpoint rp_tries (solve : option R -> option R -> res rrp_result) (lower cand : R) (k : nat) : option (res rrp_result) :=
  match k with
  | O => None
  | S k' => match solve (Some cand) (Some lower) with
            | Ok r => Some (Ok r)
            | Err e => if runtime_err e then rp_tries solve lower (next_target lower cand) k' else Some (Err e)
            end
  end.
(** portfolioapi.py:1241-1288 [_solve_relaxed_rp]; the flag is "a warning is returned". *)
Definition solve_relaxed (solve : option R -> option R -> res rrp_result) (requested : option R) (lower : R)
  : res (rrp_result * bool) :=
  match requested with
  | None => let* r := solve None None in Ok (r, false)
  | Some t => match rp_tries solve lower t 8 with
              | Some r => let* r := r in Ok (r, false)
              | None => let* r := solve None None in Ok (r, true)
              end
  end.

Record rp_diag := mkDiag {
  g_requested : option R; g_target : option R; g_clipped : bool; g_max : option R; g_rp_return : R;
  g_variance : R; g_contrib : list R; g_pct : list R; g_rp_weights : list R; g_warning : bool }.

Definition rp_optimizer (E : env) (w : wrapper) (mc : vec * mat) (m : matrices) (rb : option (list R)) (lam : R)
  (target min_target : option R) : res rrp_result :=
  rrp_solve (e_cone E) (e_lp E) (e_chol E) (d_N (w_dist w)) (fst mc) (snd mc) (rows_G m) (rows_A m) rb lam target min_target.

(** [np.isclose(a, b, rtol=1e-8, atol=1e-10)]. *)
Definition close_target (a b : R) : bool := Rleb (Rabs (a - b)) (1 / 10000000000 + 1 / 100000000 * Rabs b).

(** portfolioapi.py:1704-1837 [relaxed_risk_parity_portfolio(_with_diagnostics)]. *)
Definition relaxed_risk_parity (E : env) (w : wrapper) (lam : R) (multiplier target : option R) (rb : option (list R))
  (arg : cons_arg) (k : option costs) : res (portfolio * rp_diag) :=
  let N := d_N (w_dist w) in
  let* mc := require_mu_cov w in
  let* m := resolve_mats w arg in
  let solve := rp_optimizer E w mc m rb in
  let r := report w mc in
  let* base := solve 0 None None in
  let rp_return := dot N (fst r) (rr_weights base) in
  let lower := Rmax rp_return 0 in
  let* (requested, sol, warned) :=
    match target, multiplier with
    | None, None => if Reqb lam 0 then Ok (None, base, false) else Err ValueError        (* 1771-1772, 1777-1778 *)
    | Some t, _ => let* s := solve_relaxed (solve lam) (Some t) lower in Ok (Some t, fst s, snd s)
    | None, Some mlt => if Rltb mlt 0 then Err ValueError                               (* 1779-1780 *)
                        else let* s := solve_relaxed (solve lam) (Some (mlt * lower)) lower in
                             Ok (Some (mlt * lower), fst s, snd s)
    end in
  let x := rr_weights sol in
  let var := quad N (snd r) x in
  let contrib := map (fun i => x i * rr_marginal sol i) (seq 0 N) in
  let pct := if Rltb 0 (sqrt var) then map (fun c => c / sqrt var / sqrt var * 100) contrib else map (fun c => c * 0) contrib in
  let clipped := match rr_target sol, requested with Some a, Some b => negb (close_target a b) | _, _ => false end in
  Ok (mkPf (d_names (w_dist w)) (vlist N x) (dot N (fst r) x) (sqrt var),
      mkDiag requested (rr_target sol) clipped (rr_max sol) rp_return var contrib pct (vlist N (rr_weights base)) warned).

(** portfolioapi.py:1902-1916: the grid of multipliers. *)
Definition multiplier_grid (num : Z) (max_mult : R) (mults : option (list R)) : res (list R) :=
  match mults with
  | Some l => if Nat.eqb (List.length l) 0 then Err ValueError
              else if existsb (fun x => Rltb x 0) l then Err ValueError else Ok l
  | None => if (num <=? 0)%Z then Err ValueError
            else if Rltb max_mult 1 then Err ValueError
            else if (num =? 1)%Z then Ok [Rmax 1 max_mult] else Ok (linspace 1 max_mult num)
  end.

(** One metadata entry: multiplier, requested and effective target, warning. *)
Record rp_meta := mkMeta { t_mult : option R; t_requested : option R; t_effective : option R; t_warning : bool }.

(** portfolioapi.py:1840-1981 [relaxed_risk_parity_frontier]. *)
Definition relaxed_risk_parity_frontier (E : env) (w : wrapper) (num : Z) (max_mult lam : R) (mults : option (list R))
  (include_rp : bool) (rb : option (list R)) (arg : cons_arg) (k : option costs) : res (frontier_t * list rp_meta) :=
  let N := d_N (w_dist w) in
  let* mc := require_mu_cov w in
  if Rltb lam 0 then Err ValueError
  else
    let* m := resolve_mats w arg in
    let solve := rp_optimizer E w mc m rb in
    let r := report w mc in
    let* base := solve 0 None None in
    let rp_return := dot N (fst r) (rr_weights base) in
    let lower := Rmax rp_return 0 in
    let* grid := multiplier_grid num max_mult mults in
    let* pts := mapM (fun mlt => let* s := solve_relaxed (solve lam) (Some (mlt * lower)) lower in
                                 Ok (rr_weights (fst s), mkMeta (Some mlt) (Some (mlt * lower)) (rr_target (fst s)) (snd s))) grid in
    let pts := if include_rp then (rr_weights base, mkMeta None None (rr_target base) false) :: pts else pts in
    let cols := map fst pts in
    let* f := make_frontier N (map (vlist N) cols) (map (dot N (fst r)) cols)
                (map (fun x => sqrt (Rmax (quad N (snd r) x) 0)) cols)
                "Volatility (Relaxed RP)" (d_names (w_dist w)) (cvar_overlay E w cols) in
    Ok (f, map snd pts).

(** ** Factories *)

(** portfolioapi.py:806-850 [from_moments]: a mean vector of [k] finite entries and an [r] x [c] matrix
    of finite entries, either with labels. *)
Definition nd_vec (n : nat) (v : vec) : nd := mkND [n] (fun k => Fin (v k)).
Definition nd_mat (n : nat) (M : mat) : nd := mkND [n; n] (fun k => Fin (M (k / n)%nat (k mod n)%nat)).
Definition from_moments (eig : eig_oracle) (log : bool) (lmu : option (list string)) (kmu : nat) (mu : vec)
  (lcov : option (list string * list string)) (r c : nat) (cov : mat) (arg : cons_arg) (k : option costs)
  (long_only : bool) (total : option pynum) (bounds : option bounds_like) : res wrapper :=
  if negb (Nat.eqb r c) then Err ValueError
  else
    let* P := ensure_psd eig r cov jit in
    let* (mu', P') := (if log then (if (Nat.eqb kmu r || Nat.eqb kmu 1)%bool
                                    then Ok (log2simple (if Nat.eqb kmu r then mu else fun _ => mu 0%nat) P)
                                    else Err ValueError)
                       else Ok (mu, P)) in
    let kmu' := if log then r else kmu in
    let* d := make_dist (mkIn (Some (lmu, nd_vec kmu' mu')) (Some (lcov, nd_mat r P')) None None None) in
    make_wrapper d arg k long_only total bounds.

(** portfolioapi.py:892-959 [from_robust_posterior]: [mu], [sigma] and [s_mu] of the posterior and the
    horizon [h] (bayesian.py:649-664 scales [s_mu] by [h^2]). *)
Definition from_robust_posterior (eig : eig_oracle) (names : option (list string)) (n : nat) (mu : vec) (sigma s_mu : mat) (h : R)
  (arg : cons_arg) (k : option costs) (long_only : bool) (total : option pynum) (bounds : option bounds_like) : res wrapper :=
  let mu' := fun i => mu i * h in
  let sigma' := fun i j => sigma i j * h in
  let* w := from_moments eig false names n mu' (option_map (fun l => (l, l)) names) n n sigma' arg k long_only total bounds in
  Ok (mkW (w_dist w) (w_mats w) (w_iw w) (w_mic w) (w_pc w) true (Some (fun i j => s_mu i j * (h * h)))).

(** portfolioapi.py:853-890 [from_scenarios]: log scenarios are exponentiated first. *)
Definition from_scenarios (log : bool) (labels : option (list string)) (X : nd) (probs : option nd) (arg : cons_arg) (k : option costs)
  (long_only : bool) (total : option pynum) (bounds : option bounds_like) : res wrapper :=
  let* d := make_dist (mkIn None None (Some (labels, if log then compound_to_simple X else X)) probs None) in
  make_wrapper d arg k long_only total bounds.
