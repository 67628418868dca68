(** Model of the convenience function [posterior_moments_black_litterman] (pyvallocation/moments.py:1074-1118). *)
From Verif Require Import RBase QpBase OptModel NiwModel BlModel.
Open Scope R_scope.
Open Scope list_scope.

(** A call by keyword; [None] is an omitted argument.  [k_use_tau] and [k_pi] travel through [**kwargs]. *)
Record bl_call := BlCall {
  k_cov : matin; k_mean : option (list R); k_weights : option weights; k_delta : option R; k_tau : option R;
  k_use_tau : option bool; k_pi : option (list R); k_views : mviews; k_conf : conf; k_omega : option omega_arg }.
Definition dflt {A} (d : A) (o : option A) : A := match o with Some x => x | None => d end.

(** views.py:1291-1305: the constructor's own defaults ([omega=None]). *)
Definition class_args (c : bl_call) : bl_args :=
  BlArgs (k_cov c) (k_mean c) (k_weights c) (dflt 1 (k_delta c)) (dflt (1 / 20) (k_tau c)) (dflt true (k_use_tau c)) (k_pi c) (k_views c) (k_conf c) (dflt ONone (k_omega c)).
(** moments.py:1074-1085: the function's defaults ([omega="idzorek"]), passed on explicitly. *)
Definition function_args (c : bl_call) : bl_args :=
  BlArgs (k_cov c) (k_mean c) (k_weights c) (dflt 1 (k_delta c)) (dflt (1 / 20) (k_tau c)) (dflt true (k_use_tau c)) (k_pi c) (k_views c) (k_conf c) (dflt OIdzorek (k_omega c)).
(** views.py:1291-1396 called by keyword. *)
Definition BlackLittermanProcessor lsolve (c : bl_call) : res bl := black_litterman lsolve (class_args c).
(** moments.py:1106-1118: labels, posterior mean with its length, and covariance ([get_posterior], views.py:1280-1289). *)
Definition get_posterior (b : bl) : option (list label) * nat * vec * mat := (b_lab b, b_len b, b_mean b, b_cov b).
Definition posterior_moments_black_litterman lsolve (c : bl_call) : res (option (list label) * nat * vec * mat) :=
  let* b := black_litterman lsolve (function_args c) in Ok (get_posterior b).
