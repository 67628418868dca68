(** What mean and covariance estimates must be. *)
From Verif Require Import RBase QpBase MomModel.
Open Scope R_scope.
Open Scope list_scope.

(** A genuine probability vector on [T] scenarios. *)
Definition is_prob (T : nat) (p : vec) : Prop := (forall t, (t < T)%nat -> 0 <= p t) /\ sumn T p = 1.

(** Portfolio P&L in scenario [t]; expectation and variance of a scenario quantity. *)
Definition port (N : nat) (X : mat) (w : vec) : vec := fun t => dot N (X t) w.
Definition expectation (T : nat) (p f : vec) : R := sumn T (fun t => p t * f t).
Definition variance (T : nat) (p f : vec) : R := expectation T p (fun t => (f t - expectation T p f) ^ 2).

(** [l] is the least eigenvalue of the symmetric matrix [A]: the largest number whose multiple of the
    identity stays below [A] (Rayleigh). *)
Definition least_eigenvalue (n : nat) (A : mat) (l : R) : Prop :=
  (forall x, l * dot n x x <= quad n A x) /\
  (forall m, (forall x, m * dot n x x <= quad n A x) -> m <= l).
Definition correct_eig (eig : eig_oracle) : Prop :=
  forall n A, (0 < n)%nat -> symmetric n A -> exists l, eig n A = Some l /\ least_eigenvalue n A l.

(** Positive semidefinite up to an eigenvalue tolerance. *)
Definition psd_tol (n : nat) (A : mat) (tol : R) : Prop := forall x, - tol * dot n x x <= quad n A x.

(** [B] is the inverse of [A]. *)
Definition mmul (n : nat) (A B : mat) : mat := fun i j => sumn n (fun k => A i k * B k j).
Definition is_inverse (n : nat) (A B : mat) : Prop :=
  forall i j, (i < n)%nat -> (j < n)%nat -> mmul n A B i j = delta i j /\ mmul n B A i j = delta i j.

(** [x] lies on the segment between [a] and [b]. *)
Definition on_segment (n : nat) (a b x : vec) : Prop :=
  exists s, 0 <= s <= 1 /\ forall i, (i < n)%nat -> x i = (1 - s) * a i + s * b i.

(** Equality of the [n x n] parts. *)
Definition mat_eq (n : nat) (A B : mat) : Prop := forall i j, (i < n)%nat -> (j < n)%nat -> A i j = B i j.

(** Exponential weights: oldest observation [lam^(T-1)], then [(1-lam) lam^(T-1-t)]. *)
Definition ewma_weight (lam : R) (T t : nat) : R :=
  match t with O => lam ^ (T - 1) | _ => (1 - lam) * lam ^ (T - 1 - t) end.

(** Range of a list. *)
Definition within (l : list R) (x : R) : Prop := (exists a, In a l /\ a <= x) /\ (exists b, In b l /\ x <= b).

(** [w] is the fully invested portfolio of least variance under [A]. *)
Definition min_variance_portfolio (n : nat) (A : mat) (w : vec) : Prop :=
  sumn n w = 1 /\ forall x, sumn n x = 1 -> quad n A w <= quad n A x.

(** Biased sample covariance and fourth moments of a (centred) scenario matrix. *)
Definition fourth_moment (T : nat) (X : mat) (i : nat) : R := sumn T (fun t => X t i ^ 4) / INR T.
