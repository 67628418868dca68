(** Views of several kinds with a solver that stops early. *)
From Verif Require Import RBase QpBase OptModel MomSpec BlModel EpModel EpSpec FvSpec EtSpec.
Open Scope R_scope.
Open Scope list_scope.

(** A number meets a view specification up to an amount that depends on the target. *)
Definition meets_slack (slack : R -> R) (x : R) (v : vspec) : Prop :=
  match v with
  | SNum t | SOp Eq t => Rabs (x - t) <= slack t
  | SOp Ge t | SOp Gt t => t - slack t <= x
  | SOp Le t | SOp Lt t => x <= t + slack t
  | SBetween lo hi => lo - slack lo <= x <= hi + slack hi
  | SBad => False
  end.
(** The specification with every target replaced. *)
Definition map_spec (f : R -> R) (v : vspec) : vspec :=
  match v with SNum t => SNum (f t) | SOp o t => SOp o (f t) | SBetween lo hi => SBetween (f lo) (f hi) | SBad => SBad end.

(** What a view asks: the raw moment under [q] it is about, and the value of that moment its target stands for, given the
    means and variances under [l]. *)
Inductive raw_request (assets : list label) (T : nat) (X : mat) (l q : vec) : moment -> vkey -> R -> (R -> R) -> Prop :=
| raw_mean a i : column assets a i -> raw_request assets T X l q MMean (KOne a) (mean_of T q X i) (fun t => t)
| raw_diff a b i j : column assets a i -> column assets b j ->
    raw_request assets T X l q MMean (KTup [a; b]) (mean_of T q X i - mean_of T q X j) (fun t => t)
| raw_vol a i : column assets a i ->
    raw_request assets T X l q MVol (KOne a) (expectation T q (fun s => X s i ^ 2)) (fun t => t ^ 2 + mean_of T l X i ^ 2)
| raw_var a i : column assets a i ->
    raw_request assets T X l q MVar (KOne a) (expectation T q (fun s => X s i ^ 2)) (fun t => t + mean_of T l X i ^ 2)
| raw_skew a i : column assets a i ->
    raw_request assets T X l q MSkew (KOne a) (expectation T q (fun s => X s i ^ 3))
      (fun t => t * vol_of T l X i ^ 3 + 3 * mean_of T l X i * var_of T l X i + mean_of T l X i ^ 3)
| raw_corr a b i j : column assets a i -> column assets b j ->
    raw_request assets T X l q MCorr (KTup [a; b]) (expectation T q (fun s => X s i * X s j))
      (fun t => t * vol_of T l X i * vol_of T l X j + mean_of T l X i * mean_of T l X j).
(** The request is met up to [tol], relative to its size. *)
Definition views_within (tol : R) (assets : list label) (T : nat) (X : mat) (l q : vec) (mt : moment) (vs : list (vkey * vspec)) : Prop :=
  forall key v, In (key, v) vs -> (mt = MCorr -> exists ls, key = KTup ls) ->
    exists x f, raw_request assets T X l q mt key x f /\ meets_slack (fun t => tol * (1 + Rabs t)) x (map_spec f v).

(** How far a variance can be from the square of a volatility target [t] (or a variance target [t ^ 2]) when the mean is viewed at
    [m]. *)
Definition variance_slack (tol m t2 : R) : R :=
  let e := tol * (1 + Rabs m) in tol * (1 + Rabs t2 + (Rabs m + e) ^ 2) + 4 * e * (Rabs m + e).
Definition view_count (ks : list (moment * list (vkey * vspec))) : nat := fold_right (fun k n => (List.length (snd k) + n)%nat) 0%nat ks.
