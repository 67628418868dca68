(** C44: conversions between log and simple returns. *)
From Coq Require Import Lia Lra.
From Verif Require Import RBase QpBase ConsModel DistModel ConvModel ConvSpec PsdLib ConvProofs.
Open Scope R_scope.
Open Scope list_scope.

(** Log moments survive a round trip through simple moments, for every mean and covariance. *)
Theorem log_moments_round_trip : forall n mu C, exists m c,
  simple2log n (fst (log2simple mu C)) (snd (log2simple mu C)) = Ok (m, c) /\
  (forall i, (i < n)%nat -> m i = Fin (mu i)) /\
  (forall i j, (i < n)%nat -> (j < n)%nat -> c i j = Fin (C i j)).
Proof. exact log_round. Qed.
Print Assumptions log_moments_round_trip.

(** Simple moments survive a round trip exactly on the domain where log moments exist. *)
Theorem simple_moments_round_trip : forall n mu C,
  (forall i, (i < n)%nat -> -1 < mu i) ->
  (forall i j, (i < n)%nat -> (j < n)%nat -> 0 < (1 + mu i) * (1 + mu j) + C i j) ->
  exists m c mg cg, simple2log n mu C = Ok (m, c) /\
    (forall i, (i < n)%nat -> m i = Fin (mg i)) /\
    (forall i j, (i < n)%nat -> (j < n)%nat -> c i j = Fin (cg i j)) /\
    (forall i, (i < n)%nat -> fst (log2simple mg cg) i = mu i) /\
    (forall i j, (i < n)%nat -> (j < n)%nat -> snd (log2simple mg cg) i j = C i j).
Proof. exact simple_round. Qed.
Print Assumptions simple_moments_round_trip.

(** [simple2log] raises ValueError exactly when a mean is at most -1, and its covariance is finite
    exactly on the domain above. *)
Theorem simple2log_domain : forall n mu C,
  ((exists r, simple2log n mu C = Ok r) <-> (forall i, (i < n)%nat -> -1 < mu i)) /\
  (forall e, simple2log n mu C = Err e -> e = ValueError) /\
  (forall m c, simple2log n mu C = Ok (m, c) ->
     ((forall i j, (i < n)%nat -> (j < n)%nat -> p_fin (c i j) = true) <->
      (forall i j, (i < n)%nat -> (j < n)%nat -> 0 < (1 + mu i) * (1 + mu j) + C i j))).
Proof.
  intros n mu C. destruct (simple2log_dom n mu C) as [H1 H2]. split; [exact H1|]. split; [exact H2|]. intros m c H. apply simple2log_fin in H. exact H.
Qed.
Print Assumptions simple2log_domain.

(** [log2simple] gives the mean and covariance of [e^X - 1] when [X] has the exponential moments of
    a Gaussian with the given mean and covariance. *)
Theorem log2simple_is_lognormal : forall n E mu C, expectation E -> lognormal n E mu C ->
  (forall i, (i < n)%nat -> mean E (fun x => exp (x i) - 1) = fst (log2simple mu C) i) /\
  (forall i j, (i < n)%nat -> (j < n)%nat ->
     covariance E (fun x => exp (x i) - 1) (fun x => exp (x j) - 1) = snd (log2simple mu C) i j).
Proof. exact lognormal_moments. Qed.
Print Assumptions log2simple_is_lognormal.

(** A covariance of log returns becomes a covariance of simple returns. *)
Theorem log2simple_keeps_psd : forall n mu C, symmetric n C -> psd n C ->
  symmetric n (snd (log2simple mu C)) /\ psd n (snd (log2simple mu C)).
Proof. exact log2simple_psd. Qed.
Print Assumptions log2simple_keeps_psd.

(** Expected simple returns exceed -1, and are at least the simple return of the mean log return and
    the mean log return itself. *)
Theorem log2simple_mean_bounds : forall mu C i, 0 <= C i i ->
  -1 < fst (log2simple mu C) i /\ exp (mu i) - 1 <= fst (log2simple mu C) i /\ mu i <= fst (log2simple mu C) i.
Proof.
  intros mu C i H. unfold log2simple. cbn [fst]. pose proof (exp_pos (mu i + 1 / 2 * C i i)).
  assert (exp (mu i) <= exp (mu i + 1 / 2 * C i i)).
  { destruct (Req_dec (C i i) 0) as [E|E]; [right; rewrite E; f_equal; ring|]. left. apply exp_increasing. lra. }
  assert (1 + mu i <= exp (mu i)).
  { destruct (Req_dec (mu i) 0) as [E|E]; [rewrite E, exp_0; lra|]. left. apply exp_ineq1, E. }
  split; [lra|]. split; lra.
Qed.
Print Assumptions log2simple_mean_bounds.

(** Scenario conversions are mutually inverse; the inverse raises ValueError exactly on returns <= -1. *)
Theorem scenario_conversions_inverse : forall a,
  ((forall k, (k < nd_size a)%nat -> nd_at a k <> NInf) ->
   exists b, simple_to_compound (compound_to_simple a) = Ok b /\ nd_shape b = nd_shape a /\
     forall k, (k < nd_size a)%nat -> nd_at b k = nd_at a k) /\
  ((exists b, simple_to_compound a = Ok b) <-> (forall k, (k < nd_size a)%nat -> p_le_m1 (nd_at a k) = false)) /\
  (forall e, simple_to_compound a = Err e -> e = ValueError) /\
  (forall b, simple_to_compound a = Ok b -> nd_shape b = nd_shape a /\
     forall k, (k < nd_size a)%nat -> nd_at (compound_to_simple b) k = nd_at a k).
Proof. intros a. split; [apply compound_round|apply simple_round_scen]. Qed.
Print Assumptions scenario_conversions_inverse.

(** Projection is linear in the horizon: consecutive projections multiply, and PSD is kept. *)
Theorem projection_linear : forall mu C h k,
  (forall i, fst (project_mean_covariance mu C h) i = h * mu i) /\
  (forall i j, snd (project_mean_covariance mu C h) i j = h * C i j) /\
  (forall i, fst (project_mean_covariance (fst (project_mean_covariance mu C h)) (snd (project_mean_covariance mu C h)) k) i = fst (project_mean_covariance mu C (h * k)) i) /\
  (forall i j, snd (project_mean_covariance (fst (project_mean_covariance mu C h)) (snd (project_mean_covariance mu C h)) k) i j = snd (project_mean_covariance mu C (h * k)) i j) /\
  (forall n, psd n C -> 0 <= h -> psd n (snd (project_mean_covariance mu C h))).
Proof.
  intros mu C h k. unfold project_mean_covariance. cbn [fst snd]. repeat split; intros; try ring.
  intros x. rewrite (quad_ext n _ (fun i j => h * C i j) x x); [|intros; ring|auto]. rewrite quad_scale. apply Rmult_le_pos; auto.
Qed.
Print Assumptions projection_linear.

(** A genuine covariance of simple returns need not give a covariance of log returns. *)
Theorem simple2log_keeps_psd_refuted : exists mu C m c cg, symmetric 2 C /\ psd 2 C /\
  simple2log 2 mu C = Ok (m, c) /\ (forall i j, (i < 2)%nat -> (j < 2)%nat -> c i j = Fin (cg i j)) /\ ~ psd 2 cg.
Proof.
  set (v := fun i : nat => if Nat.eqb i 0 then 1 / 10 else 10).
  set (C := fun i j : nat => v i * v j).
  assert (HC : psd 2 C).
  { intros x. rewrite (quad_ext 2 C (fun i j => sumn 1 (fun t => v i * v j)) x x); [apply (gram_psd 2 1 (fun i _ => v i))|intros; unfold C; simpl; ring|auto]. }
  assert (HP : forall i j, 0 < C i j). { intros i j. unfold C, v. destruct (Nat.eqb i 0), (Nat.eqb j 0); lra. }
  destruct (simple_round 2 (fun _ => 0) C) as (m & c & mg & cg & E & Em & Ec & _).
  { intros; lra. } { intros i j _ _. specialize (HP i j). lra. }
  exists (fun _ => 0), C, m, c, cg. split; [intros i j _ _; unfold C; ring|]. split; [exact HC|]. split; [exact E|]. split; [exact Ec|].
  intros HN. specialize (HN (fun i => if Nat.eqb i 0 then -10 else 1)).
  assert (V : forall i j, (i < 2)%nat -> (j < 2)%nat -> cg i j = ln (1 + C i j)).
  { intros i j Hi Hj. specialize (Ec i j Hi Hj). rewrite (simple2log_ok 2 _ C) in E by (intros; lra). injection E as _ <-. cbv beta in Ec.
    assert (K : p_log1p (Fin (C i j / ((0 + 1) * (0 + 1)))) = Fin (cg i j)) by (destruct (Nat.eqb_spec i j) as [Q|]; [subst j|]; exact Ec).
    apply p_log1p_fin in K. destruct K as [_ ->]. do 2 f_equal. field. }
  unfold quad in HN. simpl in HN. rewrite !V in HN by lia. unfold C, v in HN. simpl in HN.
  assert (L1 : ln (1 + 1 / 10 * (1 / 10)) <= 1 / 100) by (pose proof (ln_le_sub1 (1 + 1 / 10 * (1 / 10)) ltac:(lra)); lra).
  assert (L2 : 1 / 2 <= ln 2).
  { pose proof exp_le_3 as H3. assert (K : exp (1 / 2) <= 2).
    { apply Rnot_lt_le. intros H. assert (exp (1 / 2) * exp (1 / 2) = exp 1) by (rewrite <- exp_plus; f_equal; field). nra. }
    rewrite <- (ln_exp (1 / 2)). destruct K as [K|K]; [left; apply ln_increasing; [apply exp_pos|exact K]|rewrite K; lra]. }
  assert (L3 : ln (1 + 10 * 10) <= 7 * ln 2).
  { replace (7 * ln 2) with (ln (2 ^ 7)); [|rewrite ln_pow by lra; simpl INR; ring]. left. apply ln_increasing; simpl; lra. }
  replace (1 + 1 / 10 * 10) with 2 in HN by field. replace (1 + 10 * (1 / 10)) with 2 in HN by field. lra.
Qed.
Print Assumptions simple2log_keeps_psd_refuted.

(** ... nor even finite numbers: strong negative correlation yields NaN without an error. *)
Theorem simple2log_finite_refuted : exists mu C m c, symmetric 2 C /\ psd 2 C /\
  simple2log 2 mu C = Ok (m, c) /\ c 0%nat 1%nat = NaN.
Proof.
  set (v := fun i : nat => if Nat.eqb i 0 then -2 else 1). set (C := fun i j : nat => v i * v j).
  exists (fun _ => 0), C. eexists _, _. split; [intros i j _ _; unfold C; ring|]. split.
  { intros x. rewrite (quad_ext 2 C (fun i j => sumn 1 (fun t => v i * v j)) x x); [apply (gram_psd 2 1 (fun i _ => v i))|intros; unfold C; simpl; ring|auto]. }
  split; [apply simple2log_ok; intros; lra|]. cbv beta. unfold C, v. simpl.
  destruct (Rltb_spec (-1) (-2 * 1 / ((0 + 1) * (0 + 1)))) as [L|L]; [lra|]. destruct (Reqb_spec (-2 * 1 / ((0 + 1) * (0 + 1))) (-1)) as [Q|Q]; [lra|reflexivity].
Qed.
Print Assumptions simple2log_finite_refuted.

(** Non-vacuity: a two-point distribution has log-normal moments. *)
Example lognormal_case : let E := fun f : vec -> R => (f (fun _ => ln (1 / 2)) + f (fun _ => ln (3 / 2))) / 2 in
  expectation E /\ lognormal 1 E (fun _ => - ln (5 / 4) / 2) (fun _ _ => ln (5 / 4)).
Proof.
  intros E. split.
  - constructor; unfold E; intros; try field. rewrite !H. reflexivity.
  - split.
    + intros i _. unfold E. rewrite !exp_ln by lra. replace (- ln (5 / 4) / 2 + ln (5 / 4) / 2) with 0 by field. rewrite exp_0. lra.
    + intros i j _ _. unfold E. rewrite !exp_plus, !exp_ln by lra.
      replace ((ln (5 / 4) + ln (5 / 4) + 2 * ln (5 / 4)) / 2) with (- (- ln (5 / 4) / 2) - (- ln (5 / 4) / 2) + ln (5 / 4)) by field.
      rewrite !exp_plus. unfold Rminus. rewrite !exp_plus, !exp_Ropp, exp_ln by lra.
      pose proof (exp_pos (- ln (5 / 4) / 2)). field. lra.
Qed.
Example simple_domain_case : forall i j, (i < 2)%nat -> (j < 2)%nat ->
  0 < (1 + (fun i : nat => INR i / 10) i) * (1 + (fun i : nat => INR i / 10) j) + (fun i j : nat => if Nat.eqb i j then 4 / 100 else - (1 / 100)) i j.
Proof. intros [|[|i]] [|[|j]] Hi Hj; try lia; simpl; lra. Qed.
