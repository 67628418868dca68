(** A probability distribution over finitely many scenarios. *)
From Verif Require Import RBase.
Open Scope R_scope.

Definition distribution (p : list R) : Prop :=
  (forall x, In x p -> 0 <= x) /\ rsum p = 1.

Definition positive_distribution (p : list R) : Prop :=
  (forall x, In x p -> 0 < x) /\ rsum p = 1.

Definition uniform (p : list R) : Prop := forall x, In x p -> x = 1 / INR (length p).

(** All mass on one scenario. *)
Definition point_mass (p : list R) : Prop := In 1 p.
