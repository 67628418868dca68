(** What a [PortfolioWrapper] promises when the solvers behind it stop within tolerances. *)
From Coq Require Import String.
From Verif Require Import RBase QpBase SortLib RiskModel RiskSpec ConsModel ConsSpec MomModel DistModel DistSpec ConvModel OptModel OptSpec FrModel WrModel WrSpec AxSpec.
Open Scope R_scope.
Open Scope list_scope.

(** The user's constraints, each up to [d]. *)
Definition near_bound (d : R) (lu : list (option pynum)) (x : R) : Prop :=
  match lu with [lo; hi] => fin_le lo (x + d) /\ fin_ge hi (x - d) | _ => True end.
Definition near_bounds (d : R) (n : nat) (b : option bounds_like) (w : list R) : Prop :=
  match b with
  | None => True
  | Some (BTuple t) => forall i, (i < n)%nat -> near_bound d t (wt w i)
  | Some (BDict l) => forall i lu, In (i, lu) l -> near_bound d lu (wt w (Z.to_nat i))
  | Some (BSeq s) => forall i, (i < n)%nat -> near_bound d (nth i s []) (wt w i)
  end.
Definition near_rel (d : R) (e : rel_entry) (w : list R) : Prop :=
  match e with
  | RelTriple i j (Num (Fin k)) => wt w (Z.to_nat i) - wt w (Z.to_nat j) <= k + d
  | _ => True
  end.
Definition near_group (d : R) (n : nat) (e : string * (list Z * pynum * pynum)) (w : list R) : Prop :=
  match e with
  | (_, (idx, Num (Fin lo), Num (Fin hi))) => lo - d <= group_weight n idx w <= hi + d
  | _ => True
  end.
Definition near_total (d : R) (t : option pynum) (w : list R) : Prop :=
  match t with Some (Num (Fin t)) => Rabs (rsum w - t) <= d | _ => True end.
Definition near_satisfies (d : R) (c : constraints) (n : nat) (w : list R) : Prop :=
  (c_long_only c = true -> forall i, (i < n)%nat -> - d <= wt w i) /\
  near_bounds d n (c_bounds c) w /\
  (forall e, In e (opt_list (c_relative c)) -> near_rel d e w) /\
  (forall e, In e (opt_list (c_groups c)) -> near_group d n e w) /\
  (forall e, In e (opt_list (c_extra_G c)) -> extra_hold (fun x y => x <= y + d) e w) /\
  near_total d (c_total c) w /\
  (forall e, In e (opt_list (c_extra_A c)) -> extra_hold (fun x y => Rabs (x - y) <= d) e w).

(** Solvers within tolerances; the factorisation and the sorting are exact. *)
Definition approx_env (d e : R) (E : env) : Prop :=
  approx_qp d e (e_qp E) /\ approx_cp d e (e_lp E) /\ approx_cp d e (e_cone E) /\ exact_chol (e_chol E) /\ sorts Rle 0 (e_sort E).

Definition near_allowed (d : R) (c : constraints) (N : nat) (x : vec) : Prop := near_satisfies d c N (to_list N x).

(** Columns near an efficient frontier: [F] are the admissible portfolios, [Fn] those admissible up to tolerances. *)
Record nearly_efficient (d e : R) (F Fn : vec -> Prop) (cost ret : vec -> R) (max_ret : R) (num : nat) (cols : list vec) : Prop := {
  ne_len : List.length cols = num;
  ne_near : forall k, (k < num)%nat -> Fn (nth k cols zrow);
  ne_target : forall k, (k < num)%nat -> target_k (ret (nth 0 cols zrow)) max_ret num k - d <= ret (nth k cols zrow);
  ne_cost : forall k, (k < num)%nat ->
    within e (fun y => F y /\ target_k (ret (nth 0 cols zrow)) max_ret num k <= ret y) cost (nth k cols zrow) }.
Definition nearly_max (e : R) (F Fn : vec -> Prop) (ret : vec -> R) (m : R) : Prop :=
  (exists x, Fn x /\ ret x = m) /\ forall y, F y -> ret y <= m + e.

(** [x] nearly solves the relaxed risk parity model on [F]. *)
Definition near_risk_parity (d e : R) (n : nat) (mu : vec) (cov : mat) (F Fn : vec -> Prop) (rb : option (list R)) (lam : R)
  (target : option R) (x marg : vec) : Prop :=
  exists L bud G A psi gamma rho,
    root_of n (OptModel.symmetrise cov) L /\ (forall y, constrained n G A y <-> F y) /\ (forall y, near_constrained d n G A y <-> Fn y) /\
    risk_budgets n rb = Ok bud /\
    near_rrp d n mu (OptModel.symmetrise cov) L bud lam G A target x marg psi gamma rho /\
    (forall y psi' gamma' rho', rrp_point n mu (OptModel.symmetrise cov) L bud lam G A target y psi' gamma' rho' ->
       psi - gamma <= psi' - gamma' + e).
