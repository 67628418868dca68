(** Entropy pooling with a solver that stops early. *)
From Verif Require Import RBase QpBase OptModel MomSpec BlModel EpModel EpSpec FvSpec.
Open Scope R_scope.
Open Scope list_scope.

(** First-order conditions up to [eps] (including the products with the multipliers of the inequality rows), with multipliers
    adding up to at most [B]. *)
Definition near_kkt (eps B : R) (d : dual) (lam : vec) : Prop :=
  near_stationary eps d lam /\ (forall k, (du_eq d <= k < du_K d)%nat -> lam k * dual_gradient d lam k <= eps) /\
  sumn (du_K d) (fun k => Rabs (lam k)) <= B.
(** A solver whose reported successes meet them. *)
Definition sound_near (eps B : R) (minimize : dual -> option vec) : Prop := forall d lam, minimize d = Some lam -> near_kkt eps B d lam.

(** Distance of two distributions. *)
Definition l1_dist (T : nat) (q q' : vec) : R := sumn T (fun s => Rabs (q s - q' s)).

(** A number meets a view specification up to [tol], relative to the size of the target. *)
Definition meets_within (tol x : R) (v : vspec) : Prop :=
  match v with
  | SNum t | SOp Eq t => Rabs (x - t) <= tol * (1 + Rabs t)
  | SOp Ge t | SOp Gt t => t - tol * (1 + Rabs t) <= x
  | SOp Le t | SOp Lt t => x <= t + tol * (1 + Rabs t)
  | SBetween lo hi => lo - tol * (1 + Rabs lo) <= x <= hi + tol * (1 + Rabs hi)
  | SBad => False
  end.
Definition mean_views_within (tol : R) (assets : list label) (T : nat) (X : mat) (q : vec) (vs : list (vkey * vspec)) : Prop :=
  forall key v, In (key, v) vs -> exists x, stat_of assets T X q MMean key x /\ meets_within tol x v.
