(** What a three-dimensional view of a distribution shows. *)
From Coq Require Import List Lia Lra.
From Verif Require Import RBase QpBase MomModel GlModel GlSpec Pl3Model.
Open Scope R_scope.

(** The columns of [V] are the first three principal directions of the symmetric matrix [C], with variances [l]: unit vectors,
    each of greatest variance among the unit vectors orthogonal to the previous ones, and uncorrelated. *)
Record principal3 (n : nat) (C V : mat) (l : vec) : Prop := {
  p3_unit : forall f g, (f < 3)%nat -> (g < 3)%nat -> sumn n (fun i => V i f * V i g) = delta f g;
  p3_uncorrelated : forall f g, (f < 3)%nat -> (g < 3)%nat -> sumn n (fun i => sumn n (fun j => V i f * C i j * V j g)) = delta f g * l f;
  p3_max : forall f w, (f < 3)%nat -> dot n w w = 1 -> (forall g, (g < f)%nat -> dot n w (fun i => V i g) = 0) -> quad n C w <= l f }.

(** The combination of assets that the direction [a] of the picture stands for. *)
Definition direction (V : mat) (a : vec) : vec := fun i => sumn 3 (fun f => V i f * a f).

(** [e' (C + 1e-16 I)^-1 e = m^2]. *)
Definition on_ellipsoid (C : mat) (m : R) (e : vec) : Prop :=
  exists y, (forall i, (i < 3)%nat -> mv 3 C y i + y i / 10000000000000000 = e i) /\ dot 3 e y = m ^ 2.

(** Exact eigenvalue routine. *)
Definition exact_eigen (eigh : eigh_oracle) : Prop :=
  forall n K, symmetric n K -> exists d Q, eigh n K = Some (d, Q) /\ eigen_decomposition n K d Q.

(** Strictly increasing row numbers from the first to the last of [T] rows, the [t]-th being the evenly spaced position rounded down. *)
Definition spread_rows (T : nat) (idx : list nat) : Prop :=
  (forall t, (t < List.length idx)%nat -> (nth t idx 0 < T)%nat) /\
  (forall s t, (s < t < List.length idx)%nat -> (nth s idx 0 < nth t idx 0)%nat) /\
  ((1 <= List.length idx)%nat -> nth 0 idx 0%nat = 0%nat) /\
  ((2 <= List.length idx)%nat -> nth (List.length idx - 1) idx 0%nat = (T - 1)%nat) /\
  (forall t, (2 <= List.length idx)%nat -> (t < List.length idx)%nat ->
     (nth t idx 0 * (List.length idx - 1) <= t * (T - 1) < (nth t idx 0 + 1) * (List.length idx - 1))%nat).

(** The routine is a function of the entries of the matrix. *)
Definition reads_entries (eigh : eigh_oracle) : Prop :=
  forall n A B, (forall i j, (i < n)%nat -> (j < n)%nat -> A i j = B i j) -> eigh n A = eigh n B.
