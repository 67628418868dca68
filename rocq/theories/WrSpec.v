(** What a call on a [PortfolioWrapper] promises. *)
From Coq Require Import String.
From Verif Require Import RBase QpBase SortLib RiskModel RiskSpec ConsModel ConsSpec MomModel DistModel DistSpec ConvModel OptModel OptSpec FrModel WrModel.
Open Scope R_scope.
Open Scope list_scope.

(** A wrapper obtained from one of the constructors, and the constraints the caller asked for. *)
Inductive constructed : wrapper -> constraints -> Prop :=
| by_init i d arg k lo tot bds w :
    make_dist i = Ok d -> make_wrapper d arg k lo tot bds = Ok w -> constructed w (asked arg lo tot bds)
| by_posterior eig names n mu sigma s_mu h arg k lo tot bds w :
    from_robust_posterior eig names n mu sigma s_mu h arg k lo tot bds = Ok w -> constructed w (asked arg lo tot bds).

(** Constraints passed to a method replace those of the wrapper, and so do costs. *)
Definition effective (built : constraints) (arg : cons_arg) : constraints :=
  match arg with CObj c => c | CDict d => from_dict d | CNone => built end.
Definition iw_of (w : wrapper) (k : option costs) := match k with Some k => Some (k_iw k) | None => w_iw w end.
Definition mic_of (w : wrapper) (k : option costs) := match k with Some k => k_mic k | None => w_mic w end.
Definition pc_of (w : wrapper) (k : option costs) := match k with Some k => k_pc k | None => w_pc w end.

Definition assets (w : wrapper) : nat := d_N (w_dist w).

(** The portfolio [x] of [N] assets satisfies the constraints. *)
Definition allowed (c : constraints) (N : nat) (x : vec) : Prop := satisfies c N (to_list N x).

(** Constraints that exclude nothing. *)
Definition vacuous (c : constraints) (N : nat) : Prop := forall l, List.length l = N -> satisfies c N l.
(** The wrapper's own constraints are used as given unless they are vacuous. *)
Definition in_force (built : constraints) (arg : cons_arg) (N : nat) : Prop := arg = CNone -> ~ vacuous built N.

(** Moments stored on the wrapper, and the simple-return moments used in reports. *)
Definition moments (w : wrapper) (mu : vec) (cov : mat) : Prop :=
  exists m c, d_mu (w_dist w) = Some m /\ d_cov (w_dist w) = Some c /\ mu = as_vec m /\ cov = as_mat (assets w) c.
Definition in_reports (w : wrapper) (mu : vec) (cov : mat) : vec * mat :=
  if w_log w then log2simple mu cov else (mu, cov).

Definition exact_env (E : env) : Prop :=
  exact_qp (e_qp E) /\ exact_cp (e_lp E) /\ exact_cp (e_cone E) /\ exact_chol (e_chol E) /\ sorts Rle 0 (e_sort E).

(** Costs passed to a call have one entry per asset. *)
Definition costs_fit (n : nat) (k : option costs) : Prop :=
  forall kk, k = Some kk -> List.length (k_iw kk) = n /\ (forall l, k_mic kk = Some l -> List.length l = n) /\ (forall l, k_pc kk = Some l -> List.length l = n).

(** Proportional costs in effect are not negative. *)
Definition pc_nonneg (w : wrapper) (k : option costs) : Prop :=
  forall l, pc_of w k = Some l -> forall a, In a l -> 0 <= a.

(** Weights as reported. *)
Definition wts (l : list R) : vec := fun i => nth i l 0.

(** The scenarios a CVaR call works on: the stored ones, or 5000 simulated normal draws of the stored
    moments (exponentiated when these are log returns), equally weighted. *)
Definition scenario_data (sim : nat -> vec) (w : wrapper) (T : nat) (X : nat -> vec) (p : vec) : Prop :=
  match d_scen (w_dist w) with
  | Some a => exists q, d_probs (w_dist w) = Some q /\ hd 0%nat (nd_shape a) = T /\ X = as_mat (assets w) a /\ p = as_vec q
  | None => T = Z.to_nat 5000 /\ (forall t i, X t i = if w_log w then exp (sim t i) - 1 else sim t i) /\
            (forall t, p t = 1 / 5000)
  end.
Definition scenario_mean (T : nat) (X : nat -> vec) (p : vec) : vec := fun i => sumn T (fun t => p t * X t i).

(** CVaR of a portfolio over those scenarios. *)
Definition cvar_of (N T : nat) (X : nat -> vec) (p : vec) (alpha : R) (x : vec) (v : R) : Prop :=
  is_cvar (to_list T p) (to_list T (fun t => dot N (X t) x)) alpha v.

(** Long-only portfolios. *)
Definition long_only_set (F : vec -> Prop) (N : nat) : Prop := forall x, F x -> forall i, (i < N)%nat -> 0 <= x i.

(** ** Relaxed risk parity *)

(** The targets attempted: halfway towards the floor after every failure, the floor itself once within
    1e-6 of it. *)
Fixpoint attempt (requested floor : R) (k : nat) : R :=
  match k with
  | O => requested
  | S k' => let m := (attempt requested floor k' + floor) / 2 in if Rleb m (floor + 1 / 1000000) then floor else m
  end.

(** ** Frontiers *)

(** Returns and risks are those of the columns. *)
Definition describes (f : frontier_t) (ret risk : vec -> R) : Prop :=
  f_ret f = map (fun l => ret (wts l)) (f_cols f) /\ f_risk f = map (fun l => risk (wts l)) (f_cols f).

(** Scenarios stored on the wrapper. *)
Definition has_scenarios (w : wrapper) (T : nat) (X : nat -> vec) (p : vec) : Prop :=
  exists a q, d_scen (w_dist w) = Some a /\ d_probs (w_dist w) = Some q /\ hd 0%nat (nd_shape a) = T /\
    X = as_mat (assets w) a /\ p = as_vec q.

(** Absolute CVaR at 95% of every column over the stored scenarios. *)
Definition cvar95_column (w : wrapper) (cols : list (list R)) (v : list R) : Prop :=
  exists T X p, has_scenarios w T X p /\ prob_vec T p /\
    Forall2 (fun l r => exists cv, cvar_of (assets w) T X p (5 / 100) (wts l) cv /\ r = Rabs cv) cols v.

(** ** Robust frontier *)

(** The penalties traced: those given, or [num] equally spaced ones from 0 to the maximum. *)
Definition penalties (num : Z) (max_lambda : R) (lams : option (list R)) (grid : list R) : Prop :=
  match lams with
  | Some l => grid = l /\ l <> [] /\ forall x, In x l -> 0 <= x
  | None => (0 < num)%Z /\ 0 <= max_lambda /\
            ((num = 1%Z /\ grid = [max_lambda]) \/ ((1 < num)%Z /\ max_lambda = 0 /\ grid = [0]) \/
             ((1 < num)%Z /\ 0 < max_lambda /\ List.length grid = Z.to_nat num /\
              forall k, (k < Z.to_nat num)%nat -> nth k grid 0 = INR k * (max_lambda / (IZR num - 1))))
  end.

(** Scatter of the mean estimate: that of the posterior, else the covariance. *)
Definition uncertainty (w : wrapper) (cov : mat) : mat := match w_unc w with Some u => u | None => cov end.

(** A square root of [M], up to the jitter the Cholesky routine may add. *)
Definition root_of (n : nat) (M L : mat) : Prop :=
  exists j, 0 <= j <= 1 / 10000000 /\ is_cholesky n (plus_jitter (OptModel.symmetrise M) j) L.

(** ** Relaxed risk parity *)

(** [x] solves the relaxed risk parity model on the portfolios of [F] with regulator [lam] and return
    target [target], and [marg] are its marginal risks. *)
Definition risk_parity_solution (n : nat) (mu : vec) (cov : mat) (F : vec -> Prop) (rb : option (list R)) (lam : R)
  (target : option R) (x marg : vec) : Prop :=
  exists L bud G A psi gamma rho,
    root_of n (OptModel.symmetrise cov) L /\ (forall y, constrained n G A y <-> F y) /\ risk_budgets n rb = Ok bud /\
    rrp_point n mu (OptModel.symmetrise cov) L bud lam G A target x psi gamma rho /\
    (forall y psi' gamma' rho', rrp_point n mu (OptModel.symmetrise cov) L bud lam G A target y psi' gamma' rho' ->
       psi - gamma <= psi' - gamma') /\
    (forall i, (i < n)%nat -> marg i = mv n (OptModel.symmetrise cov) x i).

(** The multipliers traced by the relaxed risk parity frontier. *)
Definition multipliers (num : Z) (max_mult : R) (mults : option (list R)) (grid : list R) : Prop :=
  match mults with
  | Some l => grid = l /\ l <> [] /\ forall x, In x l -> 0 <= x
  | None => (0 < num)%Z /\ 1 <= max_mult /\
            ((num = 1%Z /\ grid = [max_mult]) \/
             ((1 < num)%Z /\ List.length grid = Z.to_nat num /\
              forall k, (k < Z.to_nat num)%nat -> nth k grid 0 = 1 + INR k * ((max_mult - 1) / (IZR num - 1))))
  end.

(** A solve that failed with RuntimeError (or its subclass). *)
Definition failed {A} (r : res A) : Prop := r = Err RuntimeError \/ r = Err InfeasibleError.
