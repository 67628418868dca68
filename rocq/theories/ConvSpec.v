(** What the log / simple conversions mean. *)
From Verif Require Import RBase QpBase.
Open Scope R_scope.

(** A linear functional with total mass one on functions of the random return vector: an expectation. *)
Record expectation (E : (vec -> R) -> R) : Prop := {
  ex_one : E (fun _ => 1) = 1;
  ex_plus : forall f g, E (fun x => f x + g x) = E f + E g;
  ex_scale : forall k f, E (fun x => k * f x) = k * E f;
  ex_ext : forall f g, (forall x, f x = g x) -> E f = E g }.

(** Log returns whose exponential moments are those of a Gaussian with mean [mu] and covariance [C]. *)
Definition lognormal (n : nat) (E : (vec -> R) -> R) (mu : vec) (C : mat) : Prop :=
  (forall i, (i < n)%nat -> E (fun x => exp (x i)) = exp (mu i + C i i / 2)) /\
  (forall i j, (i < n)%nat -> (j < n)%nat -> E (fun x => exp (x i + x j)) = exp (mu i + mu j + (C i i + C j j + 2 * C i j) / 2)).

Definition mean (E : (vec -> R) -> R) (f : vec -> R) : R := E f.
Definition covariance (E : (vec -> R) -> R) (f g : vec -> R) : R := E (fun x => (f x - E f) * (g x - E g)).
