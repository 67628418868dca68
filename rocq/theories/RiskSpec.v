(** What VaR and CVaR mean, independently of sorting and masks. *)
From Verif Require Import RBase RiskModel.
Open Scope R_scope.

(** Discrete random variable: value [x_i] with probability [p_i]. *)
Definition prob (p x : list R) (P : R -> bool) : R :=
  rsum (map2 (fun q y => if P y then q else 0) p x).

Definition expect (p x : list R) (f : R -> R) : R :=
  rsum (map2 (fun q y => q * f y) p x).

(** A probability vector for [T] scenarios. *)
Definition prob_vector (p : list R) (T : nat) : Prop :=
  length p = T /\ (forall q, In q p -> 0 <= q) /\ rsum p = 1.

(** [q] is the [alpha]-quantile of the P&L: less than [alpha] of the probability lies strictly
    below [q], at least [alpha] at or below. *)
Definition is_quantile (p x : list R) (alpha q : R) : Prop :=
  In q x /\ prob p x (fun y => Rltb y q) < alpha <= prob p x (fun y => Rleb y q).

(** Rockafellar-Uryasev objective: [c + E[(loss - c)^+]/alpha] with [loss = -P&L]. *)
Definition ru (p x : list R) (alpha c : R) : R :=
  c + expect p x (fun y => Rmax 0 (- y - c)) / alpha.

(** [v] is CVaR at tail level [alpha]: the minimum over [c] of the RU objective. *)
Definition is_cvar (p x : list R) (alpha v : R) : Prop :=
  (forall c, v <= ru p x alpha c) /\ exists c, v = ru p x alpha c.

(** Scenario P&L of weights [w]. *)
Definition scenario_pnl (Rm : list (list R)) (w : list R) : list R :=
  map (fun row => rdot row w) Rm.

(** Documented defaults of the call: uniform probabilities, 95% confidence, no demeaning. *)
Definition eff_p (T : nat) (p : option (list R)) : list R :=
  match p with Some p => p | None => repeat (1 / INR T) T end.
Definition eff_conf (c : option R) : R := match c with None => 95/100 | Some c => c end.

(** With [demean=True] the portfolio P&L is taken net of its expectation. *)
Definition risk_pnl (dm : demean_arg) (p : list R) (Rm : list (list R)) (w : list R) : list R :=
  let x := scenario_pnl Rm w in
  match dm with DBool true => map (fun y => y - expect p x (fun z => z)) x | _ => x end.

(** The supplied probabilities, if any, form a probability vector over the scenarios. *)
Definition p_ok (p : option (list R)) (T : nat) : Prop :=
  match p with Some q => prob_vector q T | None => True end.
