(** Model of pyvallocation/optimization.py: the programmes handed to cvxopt and the
    pre/post-processing around them.

    Vectors and matrix rows are index functions ([QpBase.vec]); a block matrix is the list
    of its rows.  The solvers are parameters: [None] stands for any status other than
    "optimal".  Shape errors of the user matrices [G], [h], [A], [b] are not modelled (a
    row is read on its first [n] entries and carries its own right-hand side). *)
From Verif Require Import RBase QpBase.
Open Scope R_scope.

Definition rows := list (vec * R).

(** Horizontal concatenation [np.hstack]/[np.concatenate(axis=1)] of a row of width [n]
    with what follows. *)
Definition hcat (n : nat) (u v : vec) : vec := fun i => if (i <? n)%nat then u i else v (i - n)%nat.
Definition zrow : vec := fun _ => 0.
Definition cst (k : R) : vec := fun _ => k.
Definition ropp (u : vec) : vec := fun i => - u i.
Definition eye_row (i : nat) : vec := delta i.
Definition of_list (l : list R) : vec := fun i => nth i l 0.

(** Conic programmes [min c'x, G x <= h, A x = b, second-order cones] as passed to
    [solvers.lp] (no cones) and [solvers.conelp].  A cone block is the list of the rows of
    [G_soc] (its [h] is zero throughout the code): the slack [-G_soc x] must lie in the cone. *)
Record cp := mkCP { cp_n : nat; cp_c : vec; cp_lin : rows; cp_eq : rows; cp_soc : list (list vec) }.

Definition soc_ok (n : nat) (blk : list vec) (x : vec) : Prop :=
  match map (fun g => - dot n g x) blk with
  | [] => True
  | s :: rest => sqrt (rsum (map (fun z => z * z) rest)) <= s
  end.

Definition cp_obj (p : cp) (x : vec) : R := dot (cp_n p) (cp_c p) x.

Definition cp_feasible (p : cp) (x : vec) : Prop :=
  (forall g h, In (g, h) (cp_lin p) -> dot (cp_n p) g x <= h) /\
  (forall a b, In (a, b) (cp_eq p) -> dot (cp_n p) a x = b) /\
  (forall blk, In blk (cp_soc p) -> soc_ok (cp_n p) blk x).

Definition cp_optimum (p : cp) (x : vec) : Prop :=
  cp_feasible p x /\ forall y, cp_feasible p y -> cp_obj p x <= cp_obj p y.

Definition opt_rows (r : option rows) : rows := match r with Some l => l | None => [] end.

(** optimization.py:101-112 [_check_shapes] on two one-dimensional arrays. *)
Definition check_shapes {A} (u v : list R) (k : res A) : res A :=
  guard (length u =? length v)%nat ValueError k.

(** optimization.py:115-131 [_quadratic_turnover].  numpy broadcasting: a single impact
    coefficient gives a 1x1 "diagonal" that is added to every entry of [P]. *)
Definition quadratic_turnover (n : nat) (P : mat) (q : vec) (w0 lam : list R) : res (mat * vec) :=
  check_shapes w0 lam
    (if (length lam =? n)%nat then
       Ok (fun i j => P i j + 2 * (if (i =? j)%nat then of_list lam i else 0),
           fun i => q i - 2 * (of_list lam i * of_list w0 i))
     else if (length lam =? 1)%nat then
       Ok (fun i j => P i j + 2 * nth 0 lam 0, fun i => q i - 2 * (nth 0 lam 0 * nth 0 w0 0))
     else Err ValueError).

(** optimization.py:369-398 [MeanVariance.__init__]: [P = 2 Sigma], [q = 0], impact costs
    only when both optional arguments are given. *)
Definition mv_terms (n : nat) (cov : mat) (w0 lam : option (list R)) : res (mat * vec) :=
  let P := fun i j => 2 * cov i j in
  let q := zrow in
  match w0, lam with
  | Some w0, Some lam => quadratic_turnover n P q w0 lam
  | _, _ => Ok (P, q)
  end.

(** optimization.py:263-271 [_finalise_expected_row], and 411-415 / 656-660: the return row
    [-mu'w <= -target] appended to the inequalities. *)
Definition with_target (n : nat) (mean : vec) (G : rows) (target : option R) : rows :=
  match target with
  | None => G
  | Some t => G ++ [(hcat n (ropp mean) zrow, - t)]
  end.

Definition mv_qp (n : nat) (mean : vec) (P : mat) (q : vec) (G A : option rows) (target : option R) : qp :=
  mkQP n P q (with_target n mean (opt_rows G) target) (opt_rows A).

(** optimization.py:418-420: the ridge of the retry. *)
Definition trace_of (n : nat) (P : mat) : R := sumn n (fun i => P i i).
Definition mv_ridge (n : nat) (P : mat) : R :=
  Rmax (1 / 100000000) (1 / 100000000 * trace_of n P / INR (Nat.max n 1)).
Definition add_ridge (r : R) (P : mat) : mat := fun i j => P i j + (if (i =? j)%nat then 1 else 0) * r.

(** optimization.py:403-424 [MeanVariance._solve_target] (= [efficient_portfolio]). *)
Definition mv_solve_target (solve : qp -> option vec) (n : nat) (mean : vec) (P : mat) (q : vec)
  (G A : option rows) (target : option R) : res vec :=
  match solve (mv_qp n mean P q G A target) with
  | Some x => Ok x
  | None => match solve (mv_qp n mean (add_ridge (mv_ridge n P) P) q G A target) with
            | Some x => Ok x
            | None => Err RuntimeError
            end
  end.

(** Constructor followed by [efficient_portfolio(target)]. *)
Definition mv_portfolio solve n mean cov G A w0 lam target : res vec :=
  let* (P, q) := mv_terms n cov w0 lam in
  mv_solve_target solve n mean P q G A target.

(** optimization.py:285-295 [_max_expected_return]: LP [min -mu'x], value negated. *)
Definition max_return_lp (N : nat) (expected : vec) (G A : rows) : cp := mkCP N expected G A [].
Definition max_expected_return (lp : cp -> option vec) (p : cp) : res R :=
  match lp p with
  | Some x => Ok (- cp_obj p x)
  | None => Err RuntimeError
  end.

(** optimization.py:307-333 [_frontier]. *)
Definition grid_point (lo hi : R) (num : Z) (k : nat) : R := lo + INR k * ((hi - lo) / (IZR num - 1)).
Definition frontier (n : nat) (first : vec) (fn : R -> res vec) (num : Z) (mean : vec) (max_ret : R)
  : res (list vec) :=
  let min_ret := dot n mean first in
  if (num <? 2)%Z || risclose min_ret max_ret then Ok [first]
  else
    let* cols := mapM fn (map (grid_point min_ret max_ret num) (seq 1 (Z.to_nat num - 1))) in
    Ok (first :: cols).

(** optimization.py:428-441 [MeanVariance.efficient_frontier]. *)
Definition mv_frontier (solve : qp -> option vec) (lp : cp -> option vec) n mean cov G A w0 lam num
  : res (list vec) :=
  let* (P, q) := mv_terms n cov w0 lam in
  let* first := mv_solve_target solve n mean P q G A None in
  let* max_ret := max_expected_return lp
                    (max_return_lp n (hcat n (ropp mean) zrow) (opt_rows G) (opt_rows A)) in
  frontier n first (fun t => mv_solve_target solve n mean P q G A (Some t)) num mean max_ret.

(** optimization.py:443-513 [MeanVariance.max_sharpe]. *)
Record opt_result := mkRes { r_weights : vec; r_return : R; r_risk : R }.

Definition sharpe_qp (n : nat) (mean : vec) (cov : mat) (G A : option rows) (rf : R) : qp :=
  mkQP n (fun i j => 2 * cov i j) zrow
    (map (fun gh => (fst gh, 0)) (opt_rows G))
    ((fun i => mean i - rf, 1) ::
     map (fun ab => (fst ab, 0))
       (filter (fun ab => Rleb (Rabs (snd ab)) (1 / 1000000000000)) (opt_rows A))).

Definition max_sharpe (solve : qp -> option vec) (n : nat) (mean : vec) (cov : mat)
  (G A : option rows) (rf : R) : res opt_result :=
  match solve (sharpe_qp n mean cov G A rf) with
  | None => Err InfeasibleError
  | Some y =>
      let s := sumn n y in
      if Rltb (Rabs s) (1 / 1000000000000) then Err InfeasibleError
      else let w := fun i => y i / s in
           Ok (mkRes w (dot n mean w) (sqrt (quad n cov w)))
  end.

(** ** MeanCVaR *)

(** optimization.py:134-158 [_linear_turnover_blocks] and 553-645 [MeanCVaR.__init__].
    Variables [w (N) | c | xi (T) | u+ (N) | u- (N)], the last two only with costs.  [R t] is
    scenario [t].  The shape check is on [w0] and the costs only; arrays of a common length
    other than [N] build blocks of inconsistent widths, rejected by numpy or cvxopt. *)
Definition turnover (w0 costs : option (list R)) : option (list R * list R) :=
  match w0, costs with Some a, Some b => Some (a, b) | _, _ => None end.

Definition cvar_nvars (N T : nat) (tc : option (list R * list R)) : nat :=
  (N + (1 + (T + (match tc with Some _ => N + N | None => 0 end))))%nat.

Definition cvar_c (N T : nat) (p : vec) (alpha : R) (tc : option (list R * list R)) : vec :=
  hcat N zrow (hcat 1 (cst 1) (hcat T (fun t => p t / alpha)
    (match tc with Some (_, c) => hcat N (of_list c) (of_list c) | None => zrow end))).

Definition cvar_lin (N T : nat) (Rm : nat -> vec) (tc : option (list R * list R)) (G : option rows) : rows :=
  map (fun t => (hcat N (ropp (Rm t)) (hcat 1 (cst (-1)) (hcat T (ropp (eye_row t)) zrow)), 0)) (seq 0 T) ++
  map (fun t => (hcat N zrow (hcat 1 zrow (hcat T (ropp (eye_row t)) zrow)), 0)) (seq 0 T) ++
  (match tc with
   | Some _ => map (fun i => (hcat N zrow (hcat 1 zrow (hcat T zrow (ropp (eye_row i)))), 0)) (seq 0 (N + N))
   | None => []
   end) ++
  map (fun gh => (hcat N (fst gh) zrow, snd gh)) (opt_rows G).

Definition cvar_eq (N T : nat) (tc : option (list R * list R)) (A : option rows) : rows :=
  map (fun ab => (hcat N (fst ab) zrow, snd ab)) (opt_rows A) ++
  (match tc with
   | Some (w0, _) =>
       map (fun i => (hcat N (eye_row i) (hcat 1 zrow (hcat T zrow (hcat N (ropp (eye_row i)) (eye_row i)))),
                      of_list w0 i)) (seq 0 N)
   | None => []
   end).

(** [p @ R], the mean vector stored by the constructor (line 581). *)
Definition cvar_mean (T : nat) (p : vec) (Rm : nat -> vec) : vec := fun i => sumn T (fun t => p t * Rm t i).

Definition cvar_lp N T Rm p alpha tc G A (target : option R) : cp :=
  mkCP (cvar_nvars N T tc) (cvar_c N T p alpha tc)
    (with_target N (cvar_mean T p Rm) (cvar_lin N T Rm tc G) target)
    (cvar_eq N T tc A) [].

Definition cvar_init {X} (N : nat) (tc : option (list R * list R)) (k : res X) : res X :=
  match tc with
  | Some (w0, costs) => check_shapes w0 costs (guard (length costs =? N)%nat TypeError k)
  | None => k
  end.

(** optimization.py:650-663 [MeanCVaR._solve_target]: [sol["x"]] cut to the first [N]. *)
Definition cvar_solve_target (lp : cp -> option vec) N T Rm p alpha tc G A target : res vec :=
  match lp (cvar_lp N T Rm p alpha tc G A target) with
  | Some x => Ok x
  | None => Err RuntimeError
  end.

Definition cvar_portfolio lp N T Rm p alpha w0 costs G A target : res vec :=
  let tc := turnover w0 costs in
  cvar_init N tc (cvar_solve_target lp N T Rm p alpha tc G A target).

(** optimization.py:667-679 [MeanCVaR.efficient_frontier]. *)
Definition cvar_frontier lp N T Rm p alpha w0 costs G A num : res (list vec) :=
  let tc := turnover w0 costs in
  cvar_init N tc
    (let* first := cvar_solve_target lp N T Rm p alpha tc G A None in
     let* max_ret := max_expected_return lp
         (max_return_lp (cvar_nvars N T tc) (hcat N (ropp (cvar_mean T p Rm)) zrow)
            (cvar_lin N T Rm tc G) (cvar_eq N T tc A)) in
     frontier N first (fun t => cvar_solve_target lp N T Rm p alpha tc G A (Some t)) num
       (cvar_mean T p Rm) max_ret).

(** ** Cholesky with jitter: bayesian.py:43-106 [_cholesky_pd].  [chol n M] is the LAPACK
    factorisation ([None] = LinAlgError); the matrix is symmetrised first; at most
    [max_attempts = 6] retries with jitter 1e-12, 1e-11, ... *)
Definition symmetrise (M : mat) : mat := fun i j => 1 / 2 * (M i j + M j i).
Definition jittered (M : mat) (j : R) : mat := fun a b => M a b + j * (if (a =? b)%nat then 1 else 0).

Fixpoint cholesky_loop (chol : nat -> mat -> option mat) (n : nat) (M : mat) (cur : R) (left : nat) : res mat :=
  match chol n (if Reqb cur 0 then M else jittered M cur) with
  | Some L => Ok L
  | None => match left with
            | O => Err RuntimeError
            | S left' => cholesky_loop chol n M (if Reqb cur 0 then 1 / 1000000000000 else cur * 10) left'
            end
  end.
Definition cholesky_pd (chol : nat -> mat -> option mat) (n : nat) (M : mat) : res mat :=
  cholesky_loop chol n (symmetrise M) 0 6.

(** ** RobustOptimizer *)

(** optimization.py:854-937 [_solve_socp].  Variables [w (n) | t].  With proportional costs
    line 864 calls [np.hstack((-mean, penalty, (costs, costs)))]: two one-dimensional pieces
    and one two-dimensional, which numpy rejects with ValueError. *)
Definition robust_cp (n : nat) (mean : vec) (L : mat) (penalty : R) (cap : option R) (G A : option rows) : cp :=
  mkCP (n + 1) (hcat n (ropp mean) (cst penalty))
    (map (fun gh => (hcat n (fst gh) zrow, snd gh)) (opt_rows G) ++
     match cap with Some g => [(eye_row n, sqrt g)] | None => [] end)
    (map (fun ab => (hcat n (fst ab) zrow, snd ab)) (opt_rows A))
    [ hcat n zrow (cst (-1)) :: map (fun i => hcat n (ropp (L i)) zrow) (seq 0 n) ].

Definition robust_socp (conelp : cp -> option vec) n mean L (has_costs : bool) penalty cap G A : res opt_result :=
  if has_costs then Err ValueError
  else match conelp (robust_cp n mean L penalty cap G A) with
       | Some x => Ok (mkRes x (dot n mean x) (x n))
       | None => Err RuntimeError
       end.

(** optimization.py:781-799 [__init__]. *)
Definition robust_init {X} (chol : nat -> mat -> option mat) (n : nat) (S : mat)
  (w0 costs : option (list R)) (k : mat -> bool -> res X) : res X :=
  let* L := cholesky_pd chol n S in
  match w0, costs with
  | Some a, Some b => check_shapes a b (k L true)
  | _, _ => k L false
  end.

(** optimization.py:804-826: the two public variants. *)
Definition robust_lambda conelp chol n mean S w0 costs G A (lam : R) : res opt_result :=
  robust_init chol n S w0 costs (fun L hc =>
    if Rltb lam 0 then Err ValueError else robust_socp conelp n mean L hc lam None G A).
Definition robust_gamma conelp chol n mean S w0 costs G A (gamma_mu gamma_sigma_sq : R) : res opt_result :=
  robust_init chol n S w0 costs (fun L hc =>
    if Rltb gamma_mu 0 || Rltb gamma_sigma_sq 0 then Err ValueError
    else robust_socp conelp n mean L hc gamma_mu (Some gamma_sigma_sq) G A).

(** optimization.py:828-849 [RobustOptimizer.efficient_frontier]: one solve per lambda;
    [np.column_stack([])] raises on an empty sequence. *)
Definition robust_frontier conelp chol n mean S w0 costs G A (lams : list R)
  : res (list R * list R * list vec) :=
  robust_init chol n S w0 costs (fun L hc =>
    let* rs := mapM (fun lam => if Rltb lam 0 then Err ValueError
                                else robust_socp conelp n mean L hc lam None G A) lams in
    guard (negb (length rs =? 0)%nat) ValueError
      (Ok (map r_return rs, map r_risk rs, map r_weights rs))).

(** ** RelaxedRiskParity *)

(** optimization.py:1009-1020: risk budgets. *)
Definition risk_budgets (n : nat) (rb : option (list R)) : res vec :=
  match rb with
  | None => Ok (fun _ => 1 / INR n)
  | Some rb =>
      guard (length rb =? n)%nat ValueError
        (guard (negb (existsb (fun b => Rleb b 0) rb)) ValueError
           (if risclose (rsum rb) 1 then Ok (of_list rb)
            else Ok (fun i => of_list rb i / rsum rb)))
  end.

(** optimization.py:1263-1304 [_max_linear_return]: the budget row is only present when the
    user supplied no equalities. *)
Definition rrp_return_lp (n : nat) (mean : vec) (G A : option rows) : cp :=
  mkCP n (ropp mean)
    (opt_rows G ++ map (fun i => (ropp (eye_row i), 0)) (seq 0 n))
    (match A with None => [(cst 1, 1)] | Some a => a end) [].

(** optimization.py:1053-1060: clipping of the requested target. *)
Definition clip_target (max_ret target : R) (min_target : option R) : R :=
  let tol := Rmax (1 / 100000000) (1 / 1000 * Rabs max_ret) in
  let t := if Rleb (max_ret - tol) target then max_ret - tol else target in
  match min_target with Some m => Rmax t m | None => t end.

(** optimization.py:1078-1083: does the user supply a (numerically) all-ones row? *)
Definition is_ones (n : nat) (row : vec) : bool :=
  forallb (fun i => Rleb (Rabs (row i - 1)) (1 / 100000000 + 1 / 100000000 * 1)) (seq 0 n).

(** Variables [x (n) | zeta (n) | psi | gamma | rho | q], lines 1041-1048. *)
Definition xrow (n : nat) (u : vec) : vec := hcat n u zrow.
Definition zetarow (n : nat) (u : vec) : vec := hcat n zrow (hcat n u zrow).
Definition tailrow (n : nat) (u : vec) : vec := hcat n zrow (hcat n zrow u).
Definition vec4 (a b c d : R) : vec := of_list [a; b; c; d].
Definition rplus (u v : vec) : vec := fun i => u i + v i.

Definition rrp_eq (n : nat) (cov : mat) (A : option rows) : rows :=
  map (fun i => (rplus (xrow n (ropp (cov i))) (zetarow n (eye_row i)), 0)) (seq 0 n) ++
  (if existsb (fun ab => is_ones n (fst ab)) (opt_rows A) then [] else [(xrow n (cst 1), 1)]) ++
  map (fun ab => (xrow n (fst ab), snd ab)) (opt_rows A).

Definition rrp_lin (n : nat) (mean : vec) (G : option rows) (target : option R) : rows :=
  map (fun i => (xrow n (ropp (eye_row i)), 0)) (seq 0 n) ++
  map (fun i => (zetarow n (ropp (eye_row i)), 0)) (seq 0 n) ++
  [(tailrow n (vec4 (-1) 0 0 0), 0); (tailrow n (vec4 0 (-1) 0 0), 0); (tailrow n (vec4 0 0 (-1) 0), 0)] ++
  map (fun gh => (xrow n (fst gh), snd gh)) (opt_rows G) ++
  match target with Some t => [(xrow n (ropp mean), - t)] | None => [] end.

Definition theta_sqrt (cov : mat) : vec := fun i => sqrt (Rmax (cov i i) 0).

Definition rrp_soc (n : nat) (cov L : mat) (bud : vec) (lam : R) : list (list vec) :=
  [ tailrow n (vec4 0 0 0 (-1)) :: map (fun i => xrow n (ropp (L i))) (seq 0 n);
    [ tailrow n (vec4 (- sqrt (INR n)) 0 0 0); tailrow n (vec4 0 0 0 (-1)); tailrow n (vec4 0 0 (- sqrt (INR n)) 0) ] ] ++
  (if Rltb 0 lam then
     [ tailrow n (vec4 0 0 (-1) 0) ::
       map (fun i => xrow n (fun j => if (i =? j)%nat then - (sqrt lam * theta_sqrt cov i) else 0)) (seq 0 n) ]
   else []) ++
  map (fun i => [ rplus (xrow n (ropp (eye_row i))) (zetarow n (ropp (eye_row i)));
                  tailrow n (vec4 0 (- (2 * sqrt (bud i))) 0 0);
                  rplus (xrow n (ropp (eye_row i))) (zetarow n (eye_row i)) ]) (seq 0 n).

Definition rrp_cp (n : nat) (mean : vec) (cov L : mat) (bud : vec) (lam : R) (G A : option rows)
  (target : option R) : cp :=
  mkCP (n + (n + 4)) (tailrow n (vec4 1 (-1) 0 0))
    (rrp_lin n mean G target) (rrp_eq n cov A) (rrp_soc n cov L bud lam).

Record rrp_result := mkRRP {
  rr_weights : vec; rr_marginal : vec; rr_psi : R; rr_gamma : R; rr_rho : R; rr_objective : R;
  rr_target : option R; rr_max : option R }.

(** optimization.py:1025-1221 [solve] together with the constructor 970-1020 (the covariance is
    symmetrised, line 997).  Non-finite targets do not exist in the model. *)
Definition rrp_solve (conelp lp : cp -> option vec) (chol : nat -> mat -> option mat) (n : nat)
  (mean : vec) (cov0 : mat) (G A : option rows) (rb : option (list R))
  (lam : R) (target min_target : option R) : res rrp_result :=
  let cov := symmetrise cov0 in
  let* L := cholesky_pd chol n cov in
  let* bud := risk_budgets n rb in
  if Rltb lam 0 then Err ValueError
  else
    let* mt :=
      match target with
      | None => Ok (None, None)
      | Some t => let* m := max_expected_return lp (rrp_return_lp n mean G A) in
                  Ok (Some (clip_target m t min_target), Some m)
      end in
    match conelp (rrp_cp n mean cov L bud lam G A (fst mt)) with
    | None => Err RuntimeError
    | Some x =>
        Ok (mkRRP x (fun i => x (n + i)%nat) (x (n + n)%nat) (x (n + n + 1)%nat) (x (n + n + 2)%nat)
              (x (n + n)%nat - x (n + n + 1)%nat) (fst mt) (snd mt))
    end.
