(** Conditions under which every feasible request has an answer. *)
From Verif Require Import RBase QpBase OptModel OptSpec.
Open Scope R_scope.

(** No portfolio of [F] holds more than some amount of any asset, long or short. *)
Definition bounded (n : nat) (F : vec -> Prop) : Prop := exists B, forall x, F x -> forall i, (i < n)%nat -> Rabs (x i) <= B.

(** A Cholesky routine that finds the factor whenever there is one. *)
Definition complete_chol (chol : nat -> mat -> option mat) : Prop := forall n M L, is_cholesky n M L -> chol n M <> None.

Definition positive_definite (n : nat) (M : mat) : Prop := forall x, (exists i, (i < n)%nat /\ x i <> 0) -> 0 < quad n M x.

(** The turnover costs in use are not negative. *)
Definition costs_nonneg (costs : option (list R)) : Prop := forall c, costs = Some c -> forall x, In x c -> 0 <= x.

(** Starting weights and costs have one entry per asset. *)
Definition costs_shaped (n : nat) (w0 costs : option (list R)) : Prop :=
  forall a c, w0 = Some a -> costs = Some c -> length a = n /\ length c = n.

(** A long-only portfolio within the constraints in which no asset has negative marginal risk; fully
    invested unless some user equality row is (numerically) all ones. *)
Record parity_start (n : nat) (mean : vec) (cov : mat) (G A : option rows) (target : option R) (x : vec) : Prop := {
  ps_long : forall i, (i < n)%nat -> 0 <= x i;
  ps_marginal : forall i, (i < n)%nat -> 0 <= mv n cov x i;
  ps_user : constrained n G A x;
  ps_budget : (forall a b, In (a, b) (opt_rows A) -> exists i, (i < n)%nat /\ 2 / 100000000 < Rabs (a i - 1)) -> sumn n x = 1;
  ps_target : meets n mean target x }.

(** A call that answers exactly when the request can be met, and raises RuntimeError otherwise. *)
Definition answers_iff {X} (call : res X) (possible : Prop) : Prop :=
  (possible -> exists x, call = Ok x) /\ (~ possible -> call = Err RuntimeError).
