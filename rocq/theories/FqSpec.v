(** Exact variance of a portfolio and the size of its rounding error. *)
From Verif Require Import RBase FpLib.
Open Scope R_scope.

(** [w' C w] with [C] given by its columns. *)
Definition exact_variance (w : list R) (cov : list (list R)) : R := rsum (map2 (fun col wj => rdot w col * wj) cov w).
(** The same sum with every entry replaced by its absolute value. *)
Definition gross_variance (w : list R) (cov : list (list R)) : R :=
  rsum (map2 (fun col wj => rsum (map2 (fun a b => Rabs (a * b)) w col) * Rabs wj) cov w).
Definition gross_exposure (w : list R) : R := rsum (map Rabs w).

(** Rounding error bound for [n] assets; the second term is underflow. *)
Definition variance_error (n : nat) (w : list R) (cov : list (list R)) : R :=
  gam (2 * n) * gross_variance w cov + INR n * eta * (1 + gam (2 * n)) * (1 + gross_exposure w).

(** An [n]-asset portfolio and square covariance matrix of binary64 numbers. *)
Definition float_inputs (n : nat) (w : list R) (cov : list (list R)) : Prop :=
  length w = n /\ length cov = n /\ (forall x, In x w -> isf x) /\ forall col, In col cov -> length col = n /\ forall x, In x col -> isf x.

(** Positive semidefinite: no portfolio has negative variance. *)
Definition psd_columns (n : nat) (cov : list (list R)) : Prop := forall w, length w = n -> 0 <= exact_variance w cov.
