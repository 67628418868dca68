(** Conjugate-posterior wrappers of pyvallocation/moments.py:1121-1193. *)
From Coq Require Import List ZArith Reals.
From Verif Require Import Err RBase QpBase NiwModel.
From Verif Require ProjModel.
Open Scope R_scope.

(** moments.py:1141-1158: [int()] truncates the three counts. *)
Definition niw_updated chol (mu : vin) (sg : matin) (t0 nu0 : R) (smu : vin) (ssg : matin) (n : R) : res niw :=
  let* o := niw_init chol mu sg (IZR (ProjModel.trunc t0)) (IZR (ProjModel.trunc nu0)) in
  let* (o', _) := niw_update chol o smu ssg (IZR (ProjModel.trunc n)) in
  Ok o'.
(** moments.py:1121-1158 [posterior_moments_niw]. *)
Definition posterior_moments_niw chol mu sg t0 nu0 smu ssg n : res (vout * mout) :=
  let* o := niw_updated chol mu sg t0 nu0 smu ssg n in
  let* m := get_mu_ce o in
  let* s := get_sigma_ce o in
  Ok (m, s).
(** moments.py:1161-1193 [posterior_moments_niw_with_uncertainty]. *)
Definition posterior_moments_niw_with_uncertainty chol mu sg t0 nu0 smu ssg n : res (vout * mout * mout) :=
  let* o := niw_updated chol mu sg t0 nu0 smu ssg n in
  let* m := get_mu_ce o in
  let* s := get_sigma_ce o in
  let* u := get_S_mu o in
  Ok (m, s, u).
