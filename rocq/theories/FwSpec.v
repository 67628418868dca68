(** Vocabulary for probability vectors made of binary64 numbers. *)
From Flocq Require Import Core.
From Verif Require Import RBase FpLib.
Open Scope R_scope.

(** [n] non-negative binary64 numbers whose exact sum is within [tol] of one. *)
Definition prob_floats (n : nat) (tol : R) (l : list R) : Prop :=
  length l = n /\ (forall x, In x l -> 0 <= x /\ isf x) /\ Rabs (rsum l - 1) <= tol.

(** What normalising [n] floats guarantees: the sum misses one by at most [(3n+4) 2^-53]. *)
Definition norm_tol (n : nat) : R := (3 * INR n + 4) * ur.

(** Fewer than about 90 million entries. *)
Definition sizeable (n : nat) : Prop := INR n * ur <= 1 / 100000000.

(** What is assumed of [np.exp]: float results, non-negative, [exp(0) = 1], non-decreasing. *)
Definition exp_like (fexp : R -> R) : Prop :=
  (forall x, isf (fexp x) /\ 0 <= fexp x) /\ fexp 0 = 1 /\ (forall x y, x <= y -> fexp x <= fexp y).
(** Below -746 the exponential is less than half the smallest binary64 number and underflows to zero. *)
Definition underflows (fexp : R -> R) : Prop := forall x, x <= -746 -> fexp x = 0.

(** Herfindahl effective number of scenarios. *)
Definition hhi (p : list R) : R := / rsum (map (fun x => x * x) p).
