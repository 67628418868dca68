(** Stacking with a quadratic solver that stops within tolerances. *)
From Verif Require Import RBase QpBase ConsModel EnsModel EnsSpec.
Open Scope R_scope.
Open Scope list_scope.

(** Weights of a convex combination up to [d]. *)
Definition near_convex (d : R) (n : nat) (w : list R) : Prop :=
  List.length w = n /\ Rabs (rsum w - 1) <= d /\ forall x, In x w -> - d <= x.

(** Total slack of the samples in the constraint [g . x <= h]. *)
Definition total_slack (N : nat) (g : vec) (h : R) (cols : list vec) : R := rsum (map (fun c => h - dot N g c) cols).
