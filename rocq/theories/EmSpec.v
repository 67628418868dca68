(** Documented estimator names: each group of spellings names one estimator. *)
From Coq Require Import List String.
Import ListNotations.
From Verif Require Import SpecModel.
Open Scope string_scope.

Definition mean_groups : list (list string) :=
  [["sample"; "simple"]; ["jorion"; "bayes_stein"]; ["james_stein"; "james-stein"; "js"]; ["huber"; "robust_huber"];
   ["median_of_means"; "mom"]].
Definition cov_groups : list (list string) :=
  [["sample"; "empirical"]; ["ledoit_wolf"; "lw"]; ["oas"]; ["nls"; "nonlinear"; "nonlinear_shrinkage"]; ["poet"];
   ["tyler"; "tyler_shrinkage"]; ["glasso"; "graphical_lasso"]; ["ewma"]].
(** Two spellings of one estimator, in any case. *)
Definition same_estimator (groups : list (list string)) (a b : string) : Prop :=
  exists g, In g groups /\ In (lower a) g /\ In (lower b) g.
Definition known (groups : list (list string)) (a : string) : Prop := same_estimator groups a a.
(** [name] is a spelling (in any case) of the estimator whose first spelling is [e]. *)
Definition means_name (groups : list (list string)) (e name : string) : Prop :=
  exists g, In g groups /\ In e g /\ In (lower name) g.

(** ** Data transformations and location-free choices *)
From Coq Require Import Reals.
From Verif Require Import RBase QpBase EmModel.
(** Every observation of asset [i] moved by [v i]. *)
Definition shift_frame (R_ : frame) (v : vec) : frame :=
  mkFr (fr_ndim R_) (fr_T R_) (fr_N R_) (fun t i => (fr_at R_ t i + v i)%R) (fr_lab R_).
(** Covariance choices that look at deviations from the mean only. *)
Definition location_free (c : string) (ckw : kws) : Prop :=
  means_name cov_groups "sample" c \/ means_name cov_groups "ledoit_wolf" c \/ means_name cov_groups "poet" c \/
  means_name cov_groups "tyler" c \/
  ((means_name cov_groups "oas" c \/ means_name cov_groups "glasso" c) /\ kw_find ckw "assume_centered" = Some (KvBool false)).
(** Observations of asset [i]. *)
Definition observations (R_ : frame) (i : nat) : list R := map (fun t => fr_at R_ t i) (seq 0 (fr_T R_)).
