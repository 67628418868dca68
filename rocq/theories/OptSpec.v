(** What the optimisers promise, stated without their programmes. *)
From Verif Require Import RBase QpBase RiskSpec OptModel.
Open Scope R_scope.

(** ** Exact solvers: when a status is "optimal" the point returned is a global optimum. *)
Definition exact_qp (solve : qp -> option vec) : Prop := forall p x, solve p = Some x -> qp_optimum p x.
Definition exact_cp (solve : cp -> option vec) : Prop := forall p x, solve p = Some x -> cp_optimum p x.

(** ... and complete: an optimum is found whenever there is one. *)
Definition complete_qp (solve : qp -> option vec) : Prop := forall p x, qp_optimum p x -> solve p <> None.
Definition complete_cp (solve : cp -> option vec) : Prop := forall p x, cp_optimum p x -> solve p <> None.

(** ** Portfolio problems *)

(** The user's constraints [G w <= h], [A w = b]. *)
Definition constrained (n : nat) (G A : option rows) (w : vec) : Prop :=
  (forall g h, In (g, h) (opt_rows G) -> dot n g w <= h) /\
  (forall a b, In (a, b) (opt_rows A) -> dot n a w = b).

(** ... and the optional return target. *)
Definition meets (n : nat) (mean : vec) (target : option R) (w : vec) : Prop :=
  match target with Some t => t <= dot n mean w | None => True end.

Definition minimises (F : vec -> Prop) (f : vec -> R) (w : vec) : Prop :=
  F w /\ forall w', F w' -> f w <= f w'.

(** Every target that some portfolio of [F] meets has a cheapest portfolio meeting it. *)
Definition attained (F : vec -> Prop) (n : nat) (mean : vec) (cost : vec -> R) : Prop :=
  forall t, (exists y, F y /\ meets n mean t y) -> exists y, minimises (fun w => F w /\ meets n mean t w) cost y.

(** Variance plus quadratic market impact. *)
Definition impact (n : nat) (w0 lam : option (list R)) (w : vec) : R :=
  match w0, lam with
  | Some w0, Some lam => sumn n (fun i => nth i lam 0 * (w i - nth i w0 0) ^ 2)
  | _, _ => 0
  end.
Definition mv_cost n cov w0 lam w : R := quad n cov w + impact n w0 lam w.

(** Proportional turnover cost. *)
Definition turnover_cost (n : nat) (w0 costs : option (list R)) (w : vec) : R :=
  match w0, costs with
  | Some w0, Some costs => sumn n (fun i => nth i costs 0 * Rabs (w i - nth i w0 0))
  | _, _ => 0
  end.

Definition to_list (T : nat) (f : nat -> R) : list R := map f (seq 0 T).

(** [cost] is CVaR of the scenario P&L plus the turnover cost. *)
Definition cvar_cost N T (Rm : nat -> vec) (p : vec) alpha w0 costs (cost : vec -> R) : Prop :=
  forall w, is_cvar (to_list T p) (to_list T (fun t => dot N (Rm t) w)) alpha
              (cost w - turnover_cost N w0 costs w).

(** ** Efficient frontier: [num] columns whose k-th has minimal cost among feasible portfolios
    earning at least the k-th of [num] equally spaced targets between the return of the first
    column and the maximal feasible return. *)
Definition target_k (lo hi : R) (num k : nat) : R := lo + INR k * ((hi - lo) / (INR num - 1)).

Definition is_max (F : vec -> Prop) (f : vec -> R) (m : R) : Prop :=
  (exists w, F w /\ f w = m) /\ forall w, F w -> f w <= m.

Record efficient_frontier (F : vec -> Prop) (cost ret : vec -> R) (max_ret : R) (num : nat) (cols : list vec) : Prop := {
  ef_len : length cols = num;
  ef_first : minimises F cost (nth 0 cols zrow);
  ef_cols : forall k, (k < num)%nat ->
    minimises (fun w => F w /\ target_k (ret (nth 0 cols zrow)) max_ret num k <= ret w) cost (nth k cols zrow);
  ef_mono : forall j k, (j <= k < num)%nat -> cost (nth j cols zrow) <= cost (nth k cols zrow);
  ef_last : ret (nth (num - 1) cols zrow) = max_ret }.

(** The frontier curve is convex. *)
Definition convex_frontier (cost : vec -> R) (cols : list vec) : Prop :=
  forall k, (S (S k) < length cols)%nat ->
    2 * cost (nth (S k) cols zrow) <= cost (nth k cols zrow) + cost (nth (S (S k)) cols zrow).

Definition prob_vec (T : nat) (p : vec) : Prop := (forall t, (t < T)%nat -> 0 <= p t) /\ sumn T p = 1.

(** ** Sharpe ratio *)
Definition excess (n : nat) (mean : vec) (rf : R) (w : vec) : R := dot n mean w - rf * sumn n w.
Definition sharpe n mean cov rf w : R := excess n mean rf w / sqrt (quad n cov w).

(** ** Robust allocation *)
Definition norm2 (n : nat) (v : vec) : R := sqrt (dot n v v).
Definition transpose (M : mat) : mat := fun i j => M j i.
Definition mmul (n : nat) (A B : mat) : mat := fun i j => sumn n (fun k => A i k * B k j).

(** LAPACK's factorisation: lower triangular with positive diagonal, [L L' = M]. *)
Definition is_cholesky (n : nat) (M L : mat) : Prop :=
  (forall i, (i < n)%nat -> 0 < L i i) /\
  (forall i j, (i < j < n)%nat -> L i j = 0) /\
  (forall i j, (i < n)%nat -> (j < n)%nat -> mmul n L (transpose L) i j = M i j).
Definition exact_chol (chol : nat -> mat -> option mat) : Prop :=
  forall n M L, chol n M = Some L -> is_cholesky n M L.

(** Mean vectors of the ellipsoid with centre [mu], shape factor [B] (scatter [B B']) and radius [q]. *)
Definition in_ellipsoid (n : nat) (mu : vec) (B : mat) (q : R) (m : vec) : Prop :=
  exists v, norm2 n v <= 1 /\ forall i, (i < n)%nat -> m i = mu i + q * mv n B v i.

(** [v] is the worst expected return of [w] over that ellipsoid. *)
Definition worst_return n mu B q w v : Prop :=
  (forall m, in_ellipsoid n mu B q m -> v <= dot n m w) /\
  exists m, in_ellipsoid n mu B q m /\ dot n m w = v.

(** ** Risk parity *)
Definition risk_contribution (n : nat) (cov : mat) (x : vec) (i : nat) : R := x i * mv n cov x i.

(** The documented relaxed risk parity model: weights [x], average-risk ceiling [psi], floor
    [gamma], regulator [rho]; [L] is the matrix whose norm is taken as portfolio risk. *)
Record rrp_point (n : nat) (mean : vec) (cov L : mat) (bud : vec) (lam : R) (G A : option rows)
  (target : option R) (x : vec) (psi gamma rho : R) : Prop := {
  rp_long : forall i, (i < n)%nat -> 0 <= x i;
  rp_marginal : forall i, (i < n)%nat -> 0 <= mv n cov x i;
  rp_signs : 0 <= psi /\ 0 <= gamma /\ 0 <= rho;
  rp_user : constrained n G A x;
  rp_budget : (forall a b, In (a, b) (opt_rows A) -> exists i, (i < n)%nat /\ 2 / 100000000 < Rabs (a i - 1)) -> sumn n x = 1;
  rp_target : meets n mean target x;
  rp_floor : forall i, (i < n)%nat -> bud i * gamma ^ 2 <= risk_contribution n cov x i;
  rp_ceiling : dot n (mv n L x) (mv n L x) + INR n * rho ^ 2 <= INR n * psi ^ 2;
  rp_reg : 0 < lam -> lam * sumn n (fun i => Rmax (cov i i) 0 * x i ^ 2) <= rho ^ 2 }.

(** Share of total risk asked for asset [i]. *)
Definition share (n : nat) (rb : option (list R)) (i : nat) : R :=
  match rb with Some l => nth i l 0 | None => 1 end.

(** ** When is the frontier a single column?  numpy's [isclose] defaults, or fewer than two asked. *)
Definition frontier_collapses (num : Z) (lo hi : R) : Prop :=
  (num < 2)%Z \/ Rabs (lo - hi) <= 1 / 100000000 + 1 / 100000 * Rabs hi.

(** Constraints a ray can satisfy: right-hand sides zero, except fully invested rows [1'w = 1]. *)
Definition homogeneous_set (n : nat) (G A : option rows) : Prop :=
  (forall g h, In (g, h) (opt_rows G) -> h = 0) /\
  (forall a b, In (a, b) (opt_rows A) -> b = 0 \/ (b = 1 /\ forall i, (i < n)%nat -> a i = 1)).

(** [M + j I]. *)
Definition plus_jitter (M : mat) (j : R) : mat := fun a b => M a b + j * delta a b.

(** Long-only portfolios under the user's constraints; fully invested only when no equality is given. *)
Definition return_set (n : nat) (G A : option rows) (x : vec) : Prop :=
  (forall i, (i < n)%nat -> 0 <= x i) /\ (forall g h, In (g, h) (opt_rows G) -> dot n g x <= h) /\
  match A with None => sumn n x = 1 | Some a => forall r b, In (r, b) a -> dot n r x = b end.
