(** What entropy pooling must return. *)
From Verif Require Import RBase QpBase OptModel MomSpec EpModel.
Open Scope R_scope.
Open Scope list_scope.

(** Relative entropy of [q] with respect to [p]; a scenario with [q = 0] contributes nothing. *)
Definition kl (T : nat) (q p : vec) : R := sumn T (fun s => q s * ln (q s / p s)).

(** Linear views on a distribution: expectations equal to, or at most, a number. *)
Definition holds_eq (T : nat) (A : rows) (q : vec) : Prop := forall r b, In (r, b) A -> expectation T q r = b.
Definition holds_le (T : nat) (G : rows) (q : vec) : Prop := forall r h, In (r, h) G -> expectation T q r <= h.
Definition obeys (T : nat) (A G : rows) (q : vec) : Prop := is_prob T q /\ holds_eq T A q /\ holds_le T G q.

(** [q] obeys the views and is the only distribution at least as close to [p]. *)
Definition closest (T : nat) (p : vec) (A G : rows) (q : vec) : Prop :=
  obeys T A G q /\
  forall q', obeys T A G q' -> kl T q p <= kl T q' p /\ (kl T q' p <= kl T q p -> forall s, (s < T)%nat -> q' s = q s).

(** The same among the distributions that give every scenario at least [lo]. *)
Definition closest_above (lo : R) (T : nat) (p : vec) (A G : rows) (q : vec) : Prop :=
  obeys T A G q /\ (forall s, (s < T)%nat -> lo <= q s) /\
  forall q', obeys T A G q' -> (forall s, (s < T)%nat -> lo <= q' s) ->
    kl T q p <= kl T q' p /\ (kl T q' p <= kl T q p -> forall s, (s < T)%nat -> q' s = q s).

(** The rows contain "probabilities sum to one". *)
Definition has_ones (T : nat) (A : rows) : Prop := exists r, In (r, 1) A /\ forall s, (s < T)%nat -> r s = 1.

(** First-order conditions for the bounded minimisation handed to the solver, exactly or up to [eps]. *)
Definition in_bounds (d : dual) (lam : vec) : Prop := forall k, (du_eq d <= k < du_K d)%nat -> 0 <= lam k.
Definition stationary (d : dual) (lam : vec) : Prop :=
  (forall k, (k < du_eq d)%nat -> dual_gradient d lam k = 0) /\
  (forall k, (du_eq d <= k < du_K d)%nat -> 0 <= lam k /\ 0 <= dual_gradient d lam k /\ lam k * dual_gradient d lam k = 0).
Definition near_stationary (eps : R) (d : dual) (lam : vec) : Prop :=
  (forall k, (k < du_eq d)%nat -> Rabs (dual_gradient d lam k) <= eps) /\
  (forall k, (du_eq d <= k < du_K d)%nat -> 0 <= lam k /\ - eps <= dual_gradient d lam k).
(** A solver whose reported successes meet them. *)
Definition sound (minimize : dual -> option vec) : Prop := forall d lam, minimize d = Some lam -> stationary d lam.
Definition sound_tol (eps : R) (minimize : dual -> option vec) : Prop := forall d lam, minimize d = Some lam -> near_stationary eps d lam.
(** A solver that succeeds whenever there is such a point. *)
Definition finds (minimize : dual -> option vec) : Prop := forall d lam, stationary d lam -> minimize d <> None.
(** The multipliers minimise the objective within their bounds. *)
Definition dual_optimum (d : dual) (lam : vec) : Prop :=
  in_bounds d lam /\ forall lam', in_bounds d lam' -> dual_objective d lam <= dual_objective d lam'.
(** No exponent is at the clipping limits. *)
Definition unclipped (d : dual) (lam : vec) : Prop := forall s, (s < du_S d)%nat -> -700 < ep_exponent d lam s < 700.
(** Accepted values of [method]. *)
Definition supported (method : option string) : Prop :=
  method = None \/ method = Some ""%string \/ method = Some "TNC"%string \/ method = Some "L-BFGS-B"%string.
