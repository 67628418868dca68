(** Model of the Normal-Inverse-Wishart part of pyvallocation/bayesian.py:111-766 over exact reals.
    [_cholesky_pd] (43-106) is [OptModel.cholesky_pd].  Entries are finite reals; warnings are not
    modelled.  [chol] is the LAPACK factorisation and [ppf p dof] scipy's chi-square quantile. *)
From Coq Require Export String.
From Verif Require Import RBase QpBase OptModel.
From Verif Require ProjModel.
Open Scope R_scope.
Open Scope list_scope.

(** A vector argument: its labels when it is a Series, its number of dimensions, its length and entries. *)
Record vin := VIn { v_lab : option (list string); v_nd : nat; v_n : nat; v_at : vec }.
(** A matrix argument: index and columns when it is a DataFrame. *)
Record matin := MIn { m_lab : option (list string * list string); m_nd : nat; m_rows : nat; m_cols : nat; m_at : mat }.
(** Results: the labels when pandas objects are returned (index = columns), and the entries. *)
Definition vout := (option (list string) * vec)%type.
Definition mout := (option (list string) * mat)%type.

(** bayesian.py:151-172 [NIWParams]. *)
Record params := Params { T1 : R; mu1 : vout; nu1 : R; sigma1 : mout }.
(** bayesian.py:215-222, 286-290: the attributes of an [NIWPosterior]. *)
Record niw := Niw { w_N : nat; w_mu : vec; w_sigma : mat; w_t0 : Z; w_nu0 : Z; w_ix : option (list string); w_post : option params }.

Definition names_eqb (a b : list string) : bool := if list_eq_dec string_dec a b then true else false.

(** bayesian.py:265-274: labels taken from the prior mean, else from the rows of the prior scale. *)
Definition prior_index (mu : vin) (sg : matin) : res (option (list string)) :=
  match m_lab sg, v_lab mu with
  | None, l => Ok l
  | Some (ix, _), None => Ok (Some ix)
  | Some (ix, cols), Some l => if names_eqb ix l && names_eqb cols l then Ok (Some l) else Err ValueError
  end.

(** bayesian.py:225-290 [NIWPosterior.__init__]. *)
Definition niw_init (chol : nat -> mat -> option mat) (mu : vin) (sg : matin) (t0 nu0 : R) : res niw :=
  guard (v_nd mu =? 1)%nat ValueError                                           (* 259-260 *)
  (guard (negb (v_n mu =? 0)%nat) ValueError                                    (* 262-263 *)
  (let* ix := prior_index mu sg in                                              (* 265-274 *)
   guard ((m_nd sg =? 2) && (m_rows sg =? v_n mu) && (m_cols sg =? v_n mu))%nat ValueError (* 278-279 *)
   (guard (negb (Rleb t0 0)) ValueError                                         (* 281-282 *)
   (guard (negb (Rltb nu0 0)) ValueError                                        (* 283-284 *)
   (let* _ := cholesky_pd chol (v_n mu) (m_at sg) in                            (* 286 *)
    Ok (Niw (v_n mu) (v_at mu) (m_at sg) (ProjModel.trunc t0) (ProjModel.trunc nu0) ix None)))))).

(** bayesian.py:309-399 [update].  A raising call leaves the object as it was. *)
Definition niw_update (chol : nat -> mat -> option mat) (o : niw) (mu : vin) (sg : matin) (n : R) : res (niw * params) :=
  guard (match w_post o with None => true | Some _ => false end) RuntimeError  (* 348-351 *)
  (guard ((v_nd mu =? 1) && (v_n mu =? w_N o))%nat ValueError                   (* 359-360 *)
  (guard (negb (Rleb n 0)) ValueError                                           (* 362-363 *)
  (guard ((m_nd sg =? 2) && (m_rows sg =? w_N o) && (m_cols sg =? w_N o))%nat ValueError (* 370-371 *)
  (let* _ := cholesky_pd chol (w_N o) (m_at sg) in                              (* 373 *)
   let t0 := IZR (w_t0 o) in let nu0 := IZR (w_nu0 o) in
   let T1 := t0 + n in let nu1 := nu0 + n in                                    (* 376-377 *)
   let m1 := fun i => (t0 * w_mu o i + n * v_at mu i) / T1 in                   (* 378 *)
   guard (negb (w_t0 o =? 0)%Z) ZeroDivisionError                               (* 380: 1.0 / self.t0 *)
   (let d := fun i => w_mu o i - v_at mu i in
    let cross := fun i j => d i * d j / (1 / n + 1 / t0) in                     (* 380-383 *)
    guard (negb (Rleb nu1 0)) ValueError                                        (* 388-389 *)
    (let s1 := fun i j => (nu0 * w_sigma o i j + n * m_at sg i j + cross i j) / nu1 in (* 385-390 *)
     let* _ := cholesky_pd chol (w_N o) s1 in                                   (* 392 *)
     let p := Params T1 (w_ix o, m1) nu1 (w_ix o, s1) in                        (* 394-399 *)
     Ok (Niw (w_N o) (w_mu o) (w_sigma o) (w_t0 o) (w_nu0 o) (w_ix o) (Some p), p))))))).

(** bayesian.py:292-295 [is_updated]. *)
Definition is_updated (o : niw) : bool := match w_post o with Some _ => true | None => false end.

Definition with_post {A} (o : niw) (k : params -> res A) : res A :=
  match w_post o with Some p => k p | None => Err RuntimeError end.

(** bayesian.py:401-420 [get_mu_ce]. *)
Definition get_mu_ce (o : niw) : res vout := with_post o (fun p => Ok (w_ix o, snd (mu1 p))).

Definition mscale (k : R) (M : mat) : mat := fun i j => k * M i j.

(** bayesian.py:422-453 [get_S_mu]. *)
Definition get_S_mu (o : niw) : res mout :=
  with_post o (fun p => guard (negb (Rleb (nu1 p) 2)) ValueError
    (Ok (w_ix o, mscale (nu1 p / (T1 p * (nu1 p - 2))) (snd (sigma1 p))))).

(** bayesian.py:456-483 [get_sigma_ce]. *)
Definition get_sigma_ce (o : niw) : res mout :=
  with_post o (fun p => let denom := nu1 p + INR (w_N o) + 1 in
    guard (negb (Reqb denom 0)) ValueError (Ok (w_ix o, mscale (nu1 p / denom) (snd (sigma1 p))))).

(** bayesian.py:111-148 [chi2_quantile] with [sqrt=False]. *)
Definition chi2_quantile (ppf : R -> nat -> R) (p : R) (dof : nat) : res R :=
  guard (Rltb 0 p && Rltb p 1) ValueError (Ok (ppf p dof)).

(** bayesian.py:485-520 [cred_radius_mu]. *)
Definition niw_radius_mu (ppf : R -> nat -> R) (o : niw) (pm : R) : res R :=
  with_post o (fun p =>
    guard (negb (Rleb (nu1 p) 2)) ValueError
    (guard (Rltb 0 pm && Rltb pm 1) ValueError
    (let* q := chi2_quantile ppf pm (w_N o) in
     Ok (sqrt (q / T1 p * (nu1 p / (nu1 p - 2))))))).

(** The degrees of freedom [N * (N + 1) // 2]. *)
Definition sigma_dof (N : nat) : nat := (N * (N + 1) / 2)%nat.

(** bayesian.py:522-576 [cred_radius_sigma_factor]. *)
Definition niw_radius_sigma (ppf : R -> nat -> R) (o : niw) (ps : R) : res R :=
  with_post o (fun p =>
    guard (Rltb 0 ps && Rltb ps 1) ValueError
    (let d := nu1 p + INR (w_N o) + 1 in
     guard (negb (Rleb d 0)) ValueError
     (let* q := chi2_quantile ppf ps (sigma_dof (w_N o)) in
      guard (negb (Reqb (d ^ 3) 0)) ValueError
      (let a := 2 * nu1 p ^ 2 * q / d ^ 3 in
       Ok (nu1 p / d + sqrt (if Rltb a 0 then 0 else a)))))).

(** ** Histories: the public calls on one object. *)
Inductive call :=
| CUpdate (mu : vin) (sg : matin) (n : R) | CMean | CSMu | CSigma | CRadMu (p : R) | CRadSigma (p : R).
Inductive answer := AParams (p : params) | AVec (v : vout) | AMat (m : mout) | ANum (x : R) | ARaise (e : pyerr).
Definition ans {A} (f : A -> answer) (r : res A) : answer := match r with Ok a => f a | Err e => ARaise e end.
Definition step chol ppf (o : niw) (c : call) : niw * answer :=
  match c with
  | CUpdate mu sg n => match niw_update chol o mu sg n with Ok (o', p) => (o', AParams p) | Err e => (o, ARaise e) end
  | CMean => (o, ans AVec (get_mu_ce o))
  | CSMu => (o, ans AMat (get_S_mu o))
  | CSigma => (o, ans AMat (get_sigma_ce o))
  | CRadMu p => (o, ans ANum (niw_radius_mu ppf o p))
  | CRadSigma p => (o, ans ANum (niw_radius_sigma ppf o p))
  end.
Fixpoint run chol ppf (o : niw) (cs : list call) : niw :=
  match cs with [] => o | c :: cs' => run chol ppf (fst (step chol ppf o c)) cs' end.

(** ** bayesian.py:579-766 [RobustBayesPosterior] *)
Record bundle := Bundle { b_mu : vout; b_sigma : mout; b_smu : mout; b_nu1 : option R; b_N : option nat; b_T1 : option R }.

(** bayesian.py:607-647 [from_niw]; [int()] is applied to the three counts first. *)
Definition from_niw chol (mu : vin) (sg : matin) (t0 nu0 : R) (smu : vin) (ssg : matin) (n : R) : res bundle :=
  let* o := niw_init chol mu sg (IZR (ProjModel.trunc t0)) (IZR (ProjModel.trunc nu0)) in
  let* (o', p) := niw_update chol o smu ssg (IZR (ProjModel.trunc n)) in
  let* m := get_mu_ce o' in
  let* s := get_sigma_ce o' in
  let* sm := get_S_mu o' in
  Ok (Bundle m s sm (Some (nu1 p)) (Some (w_N o')) (Some (T1 p))).

(** bayesian.py:649-664 [mean_uncertainty_cov_log]. *)
Definition uncertainty_log (b : bundle) (h : R) : mout :=
  (fst (b_smu b), fun i j => snd (b_smu b) i j * h ^ 2).

(** bayesian.py:666-685 [sigma1]. *)
Definition bundle_sigma1 (b : bundle) : res mout :=
  match b_nu1 b, b_N b with
  | Some nu, Some N => Ok (fst (b_sigma b), mscale ((nu + INR N + 1) / nu) (snd (b_sigma b)))
  | _, _ => Err ValueError
  end.

(** bayesian.py:687-702 [cred_radius_mu]. *)
Definition bundle_radius_mu (ppf : R -> nat -> R) (b : bundle) (pm : R) : res R :=
  match b_nu1 b, b_N b, b_T1 b with
  | Some nu, Some N, Some T => let* q := chi2_quantile ppf pm N in Ok (sqrt (q / T * (nu / (nu - 2))))
  | _, _, _ => Err ValueError
  end.

(** bayesian.py:704-729 [cred_radius_sigma_factor]. *)
Definition bundle_radius_sigma (ppf : R -> nat -> R) (b : bundle) (ps : R) : res R :=
  match b_nu1 b, b_N b with
  | Some nu, Some N =>
      let d := nu + INR N + 1 in
      let* q := chi2_quantile ppf ps (sigma_dof N) in
      let a := 2 * nu ^ 2 * q / d ^ 3 in
      Ok (nu / d + sqrt (if Rltb a 0 then 0 else a))
  | _, _ => Err ValueError
  end.

(** bayesian.py:731-766 [mean_uncertainty_cov_simple]. *)
Definition simple_scale (b : bundle) (h : R) (exact : bool) : vec :=
  fun i => if exact then exp (snd (b_mu b) i * h + 1 / 2 * (snd (b_sigma b) i i * h ^ 2)) else exp (snd (b_mu b) i * h).
Definition uncertainty_simple (b : bundle) (h : R) (exact : bool) : mout :=
  (fst (b_smu b), fun i j => simple_scale b h exact i * (snd (b_smu b) i j * h ^ 2) * simple_scale b h exact j).
