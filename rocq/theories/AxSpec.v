(** Solvers that meet their constraints and their optimum only up to tolerances, and what a portfolio computed with
    such a solver is still worth. *)
From Verif Require Import RBase QpBase OptModel OptSpec.
Open Scope R_scope.
Open Scope list_scope.

(** A point violating no constraint by more than [d]. *)
Definition near_qp (d : R) (p : qp) (x : vec) : Prop :=
  (forall g h, In (g, h) (qp_ineq p) -> dot (qp_n p) g x <= h + d) /\
  (forall a b, In (a, b) (qp_eq p) -> Rabs (dot (qp_n p) a x - b) <= d).
Definition near_soc (d : R) (n : nat) (blk : list vec) (x : vec) : Prop :=
  match map (fun g => - dot n g x) blk with
  | [] => True
  | s :: rest => sqrt (rsum (map (fun z => z * z) rest)) <= s + d
  end.
Definition near_cp (d : R) (p : cp) (x : vec) : Prop :=
  (forall g h, In (g, h) (cp_lin p) -> dot (cp_n p) g x <= h + d) /\
  (forall a b, In (a, b) (cp_eq p) -> Rabs (dot (cp_n p) a x - b) <= d) /\
  (forall blk, In blk (cp_soc p) -> near_soc d (cp_n p) blk x).

(** Solvers whose answers are feasible up to [d] and at most [e] worse than every feasible point. *)
Definition approx_qp (d e : R) (solve : qp -> option vec) : Prop :=
  forall p x, solve p = Some x -> near_qp d p x /\ forall y, qp_feasible p y -> qp_obj p x <= qp_obj p y + e.
Definition approx_cp (d e : R) (solve : cp -> option vec) : Prop :=
  forall p x, solve p = Some x -> near_cp d p x /\ forall y, cp_feasible p y -> cp_obj p x <= cp_obj p y + e.

(** The user's constraints and the return target up to [d]. *)
Definition near_constrained (d : R) (n : nat) (G A : option rows) (w : vec) : Prop :=
  (forall g h, In (g, h) (opt_rows G) -> dot n g w <= h + d) /\
  (forall a b, In (a, b) (opt_rows A) -> Rabs (dot n a w - b) <= d).
Definition near_meets (d : R) (n : nat) (mean : vec) (target : option R) (w : vec) : Prop :=
  match target with Some t => t - d <= dot n mean w | None => True end.
Definition within (e : R) (F : vec -> Prop) (f : vec -> R) (w : vec) : Prop := forall w', F w' -> f w <= f w' + e.

(** Columns near an efficient frontier. *)
Record near_frontier (d e : R) n G A (mean : vec) (cost : vec -> R) (max_ret : R) (num : nat) (cols : list vec) : Prop := {
  nf_len : length cols = num;
  nf_feasible : forall k, (k < num)%nat -> near_constrained d n G A (nth k cols zrow);
  nf_target : forall k, (k < num)%nat -> target_k (dot n mean (nth 0 cols zrow)) max_ret num k - d <= dot n mean (nth k cols zrow);
  nf_cost : forall k, (k < num)%nat ->
    within e (fun w => constrained n G A w /\ target_k (dot n mean (nth 0 cols zrow)) max_ret num k <= dot n mean w) cost (nth k cols zrow) }.

(** [m] is the greatest attainable value up to tolerances. *)
Definition near_max (d e : R) n G A (mean : vec) (m : R) : Prop :=
  (exists x, near_constrained d n G A x /\ dot n mean x = m) /\ forall w, constrained n G A w -> dot n mean w <= m + e.

(** Lagrange multipliers of a constrained minimum: [zs] pairs each inequality row with a number [>= 0], [ys] each
    equality row with a number, [zt >= 0] belongs to the return target; the portfolio minimises the Lagrangian over all
    portfolios and pays for no slack constraint. *)
Definition penalty (n : nat) (l : list (vec * R * R)) (w : vec) : R := rsum (map (fun r => snd r * (dot n (fst (fst r)) w - snd (fst r))) l).
Definition target_penalty (n : nat) (mean : vec) (target : option R) (zt : R) (w : vec) : R :=
  match target with Some t => zt * (t - dot n mean w) | None => 0 end.
Record saddle (n : nat) (G A : option rows) (mean : vec) (target : option R) (cost : vec -> R)
  (zs ys : list (vec * R * R)) (zt : R) (w : vec) : Prop := {
  sd_ineq : map fst zs = opt_rows G;
  sd_eq : map fst ys = opt_rows A;
  sd_sign : (forall r, In r zs -> 0 <= snd r) /\ 0 <= zt;
  sd_feasible : constrained n G A w /\ meets n mean target w;
  sd_min : forall w', cost w + penalty n zs w + penalty n ys w + target_penalty n mean target zt w <=
                      cost w' + penalty n zs w' + penalty n ys w' + target_penalty n mean target zt w';
  sd_slack : penalty n zs w + target_penalty n mean target zt w = 0 }.
(** Sum of the multipliers. *)
Definition mass (l : list (vec * R * R)) : R := rsum (map (fun r => Rabs (snd r)) l).

(** Total cost rate of a turnover. *)
Definition cost_rate (costs : option (list R)) (w0 : option (list R)) (n : nat) : R :=
  match w0, costs with Some _, Some c => sumn n (fun i => nth i c 0) | _, _ => 0 end.

(** The documented relaxed risk parity model up to [d]; [m] are the reported marginal risks. *)
Record near_rrp (d : R) (n : nat) (mean : vec) (cov L : mat) (bud : vec) (lam : R) (G A : option rows)
  (target : option R) (x m : vec) (psi gamma rho : R) : Prop := {
  nr_long : forall i, (i < n)%nat -> - d <= x i;
  nr_marginal : forall i, (i < n)%nat -> - d <= m i /\ Rabs (m i - mv n cov x i) <= d;
  nr_signs : - d <= psi /\ - d <= gamma /\ - d <= rho;
  nr_user : near_constrained d n G A x;
  nr_budget : (forall a b, In (a, b) (opt_rows A) -> exists i, (i < n)%nat /\ 2 / 100000000 < Rabs (a i - 1)) -> Rabs (sumn n x - 1) <= d;
  nr_target : near_meets d n mean target x;
  nr_floor : forall i, (i < n)%nat -> bud i * gamma ^ 2 <= (x i + d / 2) * (m i + d / 2);
  nr_ceiling : Rmax 0 (norm2 n (mv n L x) - d) ^ 2 + INR n * rho ^ 2 <= (sqrt (INR n) * psi + d) ^ 2;
  nr_reg : 0 < lam -> sqrt (lam * sumn n (fun i => Rmax (cov i i) 0 * x i ^ 2)) <= rho + d }.
