(** Principal components of a centred data table. *)
From Coq Require Import List Lia Lra.
From Verif Require Import RBase QpBase MomModel.
Open Scope R_scope.

(** Sample variance (divisor [T - 1]) of the combination [w] of the centred columns of [Z]. *)
Definition comb_var (T N : nat) (Z : mat) (w : vec) : R := sumn T (fun t => dot N (Z t) w ^ 2) / INR (T - 1).

(** The columns of [V] are the first [k] principal directions of [Z], with variances [l]: unit vectors,
    each giving the largest variance among the unit vectors orthogonal to the previous ones, and
    uncorrelated scores. *)
Record principal (T N : nat) (Z : mat) (k : nat) (V : mat) (l : vec) : Prop := {
  pr_unit : forall f g, (f < k)%nat -> (g < k)%nat -> sumn N (fun i => V i f * V i g) = delta f g;
  pr_uncorrelated : forall f g, (f < k)%nat -> (g < k)%nat ->
    sumn T (fun t => dot N (Z t) (fun i => V i f) * dot N (Z t) (fun i => V i g)) / INR (T - 1) = delta f g * l f;
  pr_max : forall f w, (f < k)%nat -> dot N w w = 1 -> (forall g, (g < f)%nat -> dot N w (fun i => V i g) = 0) ->
    comb_var T N Z w <= l f }.

(** Soft thresholding of a number. *)
Definition shrunk (tau e x : R) : Prop :=
  (Rabs e <= tau -> x = 0) /\ (tau < e -> x = e - tau) /\ (e < - tau -> x = e + tau).
