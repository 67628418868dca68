(** What a frontier's selectors promise. *)
From Coq Require Import String.
From Verif Require Import RBase SortLib FrModel.
Open Scope R_scope.

(** Number of portfolios. *)
Definition size (f : frontier_t) : nat := List.length (f_ret f).

(** A frontier as the constructor accepts it: one return, one risk, one column per portfolio. *)
Definition well_formed (f : frontier_t) : Prop :=
  List.length (f_cols f) = size f /\ List.length (f_risk f) = size f /\
  (forall l, f_names f = Some l -> List.length l = f_n f) /\
  (forall k v, In (k, v) (f_alt f) -> List.length v = size f).

(** The risks meant by a label: the primary ones for no label or the primary label, else the first
    alternate of that name. *)
Inductive risks_for (f : frontier_t) : option string -> list R -> Prop :=
| rf_none : risks_for f None (f_risk f)
| rf_primary : risks_for f (Some (f_measure f)) (f_risk f)
| rf_alt l v pre post : l <> f_measure f -> f_alt f = (pre ++ (l, v) :: post)%list ->
    (forall v', ~ In (l, v') pre) -> risks_for f (Some l) v.

Definition unknown_label (f : frontier_t) (label : option string) : Prop :=
  exists l, label = Some l /\ l <> f_measure f /\ forall v, ~ In (l, v) (f_alt f).

(** [s] is portfolio [i]: its weights, labels, return and risk under [risks]. *)
Definition is_portfolio (f : frontier_t) (risks : list R) (i : nat) (s : selection) : Prop :=
  (i < size f)%nat /\ s_names s = f_names f /\ s_weights s = nth i (f_cols f) [] /\
  s_return s = nth i (f_ret f) 0 /\ s_risk s = nth i risks 0.

(** Among the portfolios satisfying [P], [i] is the first that minimises [key]. *)
Definition first_best (n : nat) (P : nat -> Prop) (key : nat -> R) (i : nat) : Prop :=
  (i < n)%nat /\ P i /\ (forall j, (j < n)%nat -> P j -> key i <= key j) /\
  (forall j, (j < i)%nat -> P j -> key i < key j).

Definition anyp (i : nat) : Prop := True.
Definition ret_of (f : frontier_t) (i : nat) : R := nth i (f_ret f) 0.
Definition nthr (l : list R) (i : nat) : R := nth i l 0.

(** Lists read as sequences. *)
Definition nondecreasing (l : list R) : Prop :=
  forall i j, (i <= j < List.length l)%nat -> nth i l 0 <= nth j l 0.
Definition increasing (l : list R) : Prop :=
  forall i j, (i < j < List.length l)%nat -> nth i l 0 < nth j l 0.
(** The points [(x_i, y_i)] lie on the graph of a convex function. *)
Definition convex_points (x y : list R) : Prop :=
  forall i j k, (i < j)%nat -> (j < k)%nat -> (k < List.length x)%nat ->
    (nth j y 0 - nth i y 0) * (nth k x 0 - nth i x 0) <= (nth k y 0 - nth i y 0) * (nth j x 0 - nth i x 0).
(** Largest of the first [i+1] entries. *)
Definition is_running_max (l : list R) (i : nat) (m : R) : Prop :=
  (exists j, (j <= i)%nat /\ m = nth j l 0) /\ forall j, (j <= i)%nat -> nth j l 0 <= m.
