(** Vocabulary of the floating-point statements. *)
From Verif Require Import RBase FpLib.
Open Scope R_scope.

(** [np.sum] in an unspecified order: on binary64 terms it returns the float sum of some bracketing of some reordering. *)
Definition sums (npsum : list R -> R) : Prop := forall l, (forall x, In x l -> isf x) -> fsum_of l (npsum l).

(** [x @ y] in an unspecified order, with or without fused multiply-add. *)
Definition dots (vdot : list R -> list R -> R) : Prop :=
  forall x y, length x = length y -> (forall z, In z x -> isf z) -> (forall z, In z y -> isf z) -> fdot_of x y (vdot x y).

(** [x] approximates [y] entrywise within [eps]. *)
Definition within (eps : R) (x y : list R) : Prop := Forall2 (fun a b => Rabs (a - b) <= eps) x y.

(** With [T] scenarios the tail level is known up to [(2T+6) 2^-53]. *)
Definition slack (T : nat) : R := (2 * INR T + 6) * ur.

(** Error of CVaR for [T] scenarios with P&L of magnitude at most [M] and tail level [a]; the second term is underflow. *)
Definition cvar_bound (T : nat) (M a : R) : R := ((12 * INR T + 60) * ur * M + (4 * INR T + 8) * eta) / a.
