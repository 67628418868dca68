(** Mixed-integer solvers that stop within a tolerance.

    HiGHS, behind [scipy.optimize.milp], accepts a point when every row and bound holds up to a feasibility tolerance and
    every integer variable is near an integer, and stops at a positive optimality gap. *)
From Verif Require Import QBase ProbModel DiscModel DiscSpec.
Open Scope Q_scope.

(** A point within [d] of every bound and row, whose integer variables are within [t] of an integer. *)
Definition near_milp (d t : Q) (P : milp) (x : list Q) : Prop :=
  List.length x = List.length (p_c P) /\
  (forall i, (i < List.length x)%nat -> nth i (p_lb P) 0 - d <= nth i x 0 <= nth i (p_ub P) 0 + d) /\
  (forall i, (i < p_nint P)%nat -> exists z, Qabs (nth i x 0 - inject_Z z) <= t) /\
  Qabs (qdot (fst (p_eq P)) x - snd (p_eq P)) <= d /\
  (forall row rhs, In (row, rhs) (p_le P) -> qdot row x <= rhs + d).

(** No admissible point is better by more than [e]. *)
Definition gap_milp (e : Q) (P : milp) (x : list Q) : Prop :=
  forall y, milp_feasible P y -> qdot (p_c P) x <= qdot (p_c P) y + e.

(** The price of one lot of every asset together. *)
Definition basket (inp : inputs) : Q := qsum (map (fun a => a_price a * inject_Z (a_lot a)) (in_assets inp)).

(** How far the cost of the rounded lots may exceed the funds, and what rounding may add to the objective. *)
Definition overspend (d t : Q) (inp : inputs) : Q := 2 * d + t * basket inp.
Definition milp_slack (d t pen : Q) (inp : inputs) : Q :=
  inject_Z (Z.of_nat (List.length (in_assets inp))) * d + t * basket inp + Qabs pen * (d + t * basket inp).

(** The quantity minimised: money tracking error plus the penalty on cash. *)
Definition objective (pen : Q) (inp : inputs) (h : asset -> Z) : Q :=
  in_total inp * tracking inp h + pen * (in_total inp - cost inp h).

(** Amounts of money that are whole multiples of [g]. *)
Definition on_tick (g q : Q) : Prop := exists z, q == inject_Z z * g.
