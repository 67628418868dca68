(** Theorems about moment estimation (C07, C33-C36, C52-C54). *)
From Coq Require Import FunctionalExtensionality.
From Verif Require Import RBase QpBase SortLib MomModel MomSpec MomProofs MomProofs2 MomProofs3.
Open Scope R_scope.
Open Scope list_scope.

(** * C07 *)
(** One value per portfolio, each the quadratic form of its column; non-negative for a positive
    semidefinite covariance; for the sample covariance it is the variance of the portfolio's P&L;
    the volatility squares to it. *)
Theorem portfolio_variance_is_variance :
  (forall N M W cov, List.length (portfolio_variance N M W cov) = M) /\
  (forall N M W cov m, (m < M)%nat -> psd N cov -> 0 <= nth m (portfolio_variance N M W cov) 0) /\
  (forall T N M X p W m, (m < M)%nat ->
     nth m (portfolio_variance N M W (wcov T p X)) 0 = variance T p (port N X (fun i => W i m))) /\
  (forall N M W cov k m, (m < M)%nat ->
     nth m (portfolio_variance N M (fun i m => k * W i m) cov) 0 = k ^ 2 * nth m (portfolio_variance N M W cov) 0) /\
  (forall N M W cov m, (m < M)%nat -> psd N cov ->
     exists v, nth m (portfolio_volatility N M W cov) None = Some v /\ 0 <= v /\ v ^ 2 = nth m (portfolio_variance N M W cov) 0).
Proof.
  split; [intros; unfold portfolio_variance; rewrite map_length; apply seq_length|].
  split; [intros N M W cov m Hm HP; rewrite quad_port_var by exact Hm; apply HP|].
  split; [intros T N M X p W m Hm; rewrite quad_port_var by exact Hm; apply quad_wcov|].
  split.
  - intros N M W cov k m Hm. rewrite !quad_port_var by exact Hm. rewrite (quad_vec_scale N cov k (fun i => W i m)). ring.
  - intros N M W cov m Hm HP.
    assert (H0 : 0 <= nth m (portfolio_variance N M W cov) 0) by (rewrite quad_port_var by exact Hm; apply HP).
    exists (sqrt (nth m (portfolio_variance N M W cov) 0)). split.
    + unfold portfolio_volatility. rewrite (nth_map_lt _ _ m 0) by (unfold portfolio_variance; rewrite map_length, seq_length; exact Hm).
      destruct (Rltb_spec (nth m (portfolio_variance N M W cov) 0) 0); [lra|reflexivity].
    + split; [apply sqrt_pos|]. replace (sqrt (nth m (portfolio_variance N M W cov) 0) ^ 2) with (Rsqr (sqrt (nth m (portfolio_variance N M W cov) 0))) by (unfold Rsqr; ring).
      apply Rsqr_sqrt. exact H0.
Qed.
Print Assumptions portfolio_variance_is_variance.

Example variance_case : nth 0 (portfolio_variance 2 1 (fun i _ => INR (S i)) (fun i j => if Nat.eqb i j then 2 else 1)) 0 = 14.
Proof. simpl. lra. Qed.

(** * C33 *)
(** When it returns: the weights number the scenarios, are non-negative up to 1e-9 and sum to one up to
    1.1e-5; the mean is the expectation of every portfolio's P&L and the covariance gives its variance; it is
    symmetric, and positive semidefinite for genuine probabilities. *)
Theorem sample_moments_correct :
  forall T N X pn p lR lp mu S l,
    estimate_sample_moments T N X pn p lR lp = Ok (mu, S, l) ->
    pn = T /\ (forall t, (t < T)%nat -> - (1/1000000000) <= p t) /\ Rabs (sumn T p - 1) <= 11/1000000 /\
    (forall w, dot N mu w = expectation T p (port N X w)) /\
    (forall w, quad N S w = variance T p (port N X w)) /\
    symmetric N S /\ (is_prob T p -> psd N S).
Proof.
  intros T N X pn p lR lp mu S l H. unfold estimate_sample_moments in H.
  destruct (Nat.eqb_spec pn T) as [->|]; [|discriminate]. cbn [negb] in H.
  destruct (check_non_negativity T p) eqn:E1; [|discriminate]. destruct (check_weights_sum_to_one T p) eqn:E2; [|discriminate]. cbn [andb negb] in H.
  apply bind_ok in H as (l1 & _ & H). apply bind_ok in H as (l2 & _ & H). injection H as <- <- <-.
  split; [reflexivity|]. split.
  { intros t Ht. unfold check_non_negativity in E1. rewrite forallb_forall in E1. apply Rleb_true, E1, in_seq. lia. }
  split. { apply Rleb_true in E2. rewrite Rabs_R1 in E2. lra. }
  split; [intros w; symmetry; apply port_mean|]. split; [intros w; apply quad_wcov|]. split; [apply symmetrise_sym|].
  intros (Hp & _) w. rewrite quad_wcov. apply variance_nonneg. exact Hp.
Qed.
Print Assumptions sample_moments_correct.

(** Genuine probabilities of the right length are always accepted (no labels). *)
Theorem sample_moments_total :
  forall T N X p, is_prob T p -> estimate_sample_moments T N X T p Arr Arr = Ok (wmean T p X, wcov T p X, None).
Proof.
  intros T N X p (Hp & Hs). unfold estimate_sample_moments. rewrite Nat.eqb_refl. cbn [negb].
  assert (E1 : check_non_negativity T p = true).
  { unfold check_non_negativity. apply forallb_forall. intros t Ht. apply in_seq in Ht. apply Rleb_true. specialize (Hp t ltac:(lia)). lra. }
  assert (E2 : check_weights_sum_to_one T p = true).
  { unfold check_weights_sum_to_one. apply Rleb_true. rewrite Hs. replace (1 - 1) with 0 by ring. rewrite Rabs_R0, Rabs_R1. lra. }
  rewrite E1, E2. reflexivity.
Qed.
Print Assumptions sample_moments_total.

Example uniform_prob : is_prob 4 (fun _ => 1/4).
Proof. split; [intros; lra|simpl; lra]. Qed.

(** Finding: weights accepted within the tolerance can give a covariance that is not positive
    semidefinite. *)
Theorem sample_covariance_psd_for_accepted_weights_refuted :
  ~ (forall T N X p mu S, estimate_sample_moments T N X T p Arr Arr = Ok (mu, S, None) -> psd N S).
Proof.
  intros H.
  set (p := fun t : nat => if Nat.eqb t 0 then - (1/10000000000) else if Nat.eqb t 1 then 1 + 1/10000000000 else 0).
  set (X := fun t (i : nat) => if Nat.eqb t 0 then 1 else 0 : R).
  assert (E : estimate_sample_moments 2 1 X 2 p Arr Arr = Ok (wmean 2 p X, wcov 2 p X, None)).
  { unfold estimate_sample_moments. cbn [Nat.eqb negb].
    assert (E1 : check_non_negativity 2 p = true).
    { unfold check_non_negativity. simpl. unfold p. simpl. rewrite !(proj2 (Rleb_true _ _)); [reflexivity|lra|lra]. }
    assert (E2 : check_weights_sum_to_one 2 p = true).
    { unfold check_weights_sum_to_one. apply Rleb_true. simpl. unfold p. simpl.
      replace (0 + - (1 / 10000000000) + (1 + 1 / 10000000000) - 1) with 0 by lra. rewrite Rabs_R0, Rabs_R1. lra. }
    rewrite E1, E2. reflexivity. }
  specialize (H 2%nat 1%nat X p _ _ E (fun _ => 1)). rewrite quad_wcov in H. unfold variance, expectation, port, dot in H.
  simpl in H. unfold X, p in H. simpl in H. lra.
Qed.
Print Assumptions sample_covariance_psd_for_accepted_weights_refuted.

(** No probabilities means equal probabilities. *)
Theorem moments_default_is_uniform :
  forall T N X, (1 <= T)%nat ->
    exists m0 S0 m1 S1, sample_pair T N X None = Ok (m0, S0) /\ sample_pair T N X (Some (T, fun _ => / INR T)) = Ok (m1, S1) /\
      (forall i, m0 i = m1 i) /\ (forall i j, S0 i j = S1 i j).
Proof.
  intros T N X HT. assert (HT0 : INR T <> 0) by (apply Rgt_not_eq, lt_0_INR; lia).
  assert (HP : is_prob T (fun _ => / INR T)).
  { split; [intros; apply Rlt_le, Rinv_0_lt_compat, lt_0_INR; lia|]. rewrite sumn_const. field. exact HT0. }
  unfold sample_pair. rewrite sample_moments_total by exact HP. cbn [bind fst].
  eexists _, _, _, _. split; [reflexivity|]. split; [reflexivity|].
  assert (Em : forall i, sumn T (fun t => X t i) / INR T = wmean T (fun _ => / INR T) X i) by (intros i; unfold wmean; rewrite sumn_scale_r; reflexivity).
  split; [exact Em|]. intros i j. unfold np_cov, wcov, symmetrise. rewrite Nat.sub_0_r.
  assert (Ec : forall a b, sumn T (fun t => (X t a - wmean T (fun _ => / INR T) X a) * (X t b - wmean T (fun _ => / INR T) X b) * / INR T) =
                      sumn T (fun t => center T X t a * center T X t b) / INR T).
  { intros a b. rewrite sumn_scale_r. unfold Rdiv. f_equal. apply sumn_ext. intros t Ht. unfold center. rewrite !Em. reflexivity. }
  rewrite !Ec. rewrite (sumn_ext T (fun t => center T X t j * center T X t i) (fun t => center T X t i * center T X t j)) by (intros; ring). lra.
Qed.
Print Assumptions moments_default_is_uniform.

(** Labels: with labelled returns and weights labelled by scenario, the moments carry the asset labels
    whenever the counts differ. *)
Theorem moments_labels_are_assets :
  forall T N X p cols idx, is_prob T p -> List.length cols = N -> List.length idx = T -> T <> N ->
    estimate_sample_moments T N X T p (Labelled cols) (Labelled idx) = Ok (wmean T p X, wcov T p X, Some cols).
Proof.
  intros T N X p cols idx HP HN HT Hne. pose proof (sample_moments_total T N X p HP) as H.
  unfold estimate_sample_moments in *. destruct (negb (Nat.eqb T T)); [discriminate|]. destruct (negb _); [discriminate|].
  cbn [labels labels_from]. destruct (Nat.eqb_spec (List.length idx) (List.length cols)); [lia|]. cbn [andb].
  cbn [bind wrap_labels]. rewrite HN, Nat.eqb_refl. reflexivity.
Qed.
Print Assumptions moments_labels_are_assets.

(** Finding: with unlabelled returns and labelled weights the asset moments are labelled with the scenario
    labels (as many scenarios as assets), or the call fails (otherwise). *)
Theorem moments_never_carry_scenario_labels_refuted :
  forall T N X p idx, is_prob T p -> List.length idx = T ->
    estimate_sample_moments T N X T p Arr (Labelled idx) =
      if Nat.eqb T N then Ok (wmean T p X, wcov T p X, Some idx) else Err ValueError.
Proof.
  intros T N X p idx HP HT. pose proof (sample_moments_total T N X p HP) as H.
  unfold estimate_sample_moments in *. destruct (negb (Nat.eqb T T)); [discriminate|]. destruct (negb _); [discriminate|].
  cbn [labels labels_from bind wrap_labels]. rewrite HT. destruct (Nat.eqb T N); reflexivity.
Qed.
Print Assumptions moments_never_carry_scenario_labels_refuted.

(** Finding: square labelled data with labelled weights always fails unless the scenario labels equal the
    asset labels. *)
Theorem square_labelled_data_accepted_refuted :
  forall N X p cols idx, is_prob N p -> List.length cols = N -> List.length idx = N -> cols <> idx ->
    estimate_sample_moments N N X N p (Labelled cols) (Labelled idx) = Err ValueError.
Proof.
  intros N X p cols idx HP HN HT Hne. pose proof (sample_moments_total N N X p HP) as H.
  unfold estimate_sample_moments in *. destruct (negb (Nat.eqb N N)); [discriminate|]. destruct (negb _); [discriminate|].
  cbn [labels labels_from]. rewrite HN, HT, Nat.eqb_refl. destruct (list_eq_dec string_dec idx cols) as [->|]; [congruence|]. reflexivity.
Qed.
Print Assumptions square_labelled_data_accepted_refuted.

(** * C34 *)
(** Ledoit-Wolf: a convex combination of the target and the (symmetrised) sample covariance, positive
    semidefinite.  The identity target keeps the average variance. *)
Theorem ledoit_wolf_convex :
  forall eig T N R_ S tg out, correct_eig eig -> psd N S -> (1 <= N)%nat ->
    shrink_covariance_ledoit_wolf eig T N R_ N N S tg = Ok out ->
    exists d, 0 <= d <= 1 /\ psd N out /\ symmetric N out /\
      mat_eq N out (fun i j => d * lw_F N (symmetrise S) tg i j + (1 - d) * symmetrise S i j) /\
      (tg = LwIdentity \/ tg = LwConstCorr) /\ trace N out = trace N S /\
      (tg = LwIdentity -> mat_eq N (lw_F N (symmetrise S) tg) (fun i j => if Nat.eqb i j then trace N S / INR N else 0)) /\
      (tg = LwConstCorr -> exists r, mat_eq N (lw_F N (symmetrise S) tg)
           (fun i j => if Nat.eqb i j then S i i else r * (sqrt (S i i) * sqrt (S j j)))).
Proof.
  intros eig T N R_ S tg out HE HS HN H. destruct (lw_ok _ _ _ _ _ _ _ _ _ HE HS HN H) as (Ht & d & Hd & _ & HM & HP).
  assert (HFs : symmetric N (lw_F N (symmetrise S) tg)) by (apply lw_F_sym, symmetrise_sym).
  assert (HFi : tg = LwIdentity -> mat_eq N (lw_F N (symmetrise S) tg) (fun i j => if Nat.eqb i j then trace N S / INR N else 0)).
  { intros ->. intros i j _ _. cbn [lw_F]. rewrite trace_symmetrise. unfold eye, delta. destruct (Nat.eqb i j); unfold Rdiv; ring. }
  assert (HFc : tg = LwConstCorr -> exists r, mat_eq N (lw_F N (symmetrise S) tg) (fun i j => if Nat.eqb i j then S i i else r * (sqrt (S i i) * sqrt (S j j)))).
  { intros ->. cbn [lw_F]. eexists. intros i j Hi Hj. assert (Es : forall k, symmetrise S k k = S k k) by (intros; unfold symmetrise; lra).
    rewrite !Es. reflexivity. }
  exists d. split; [exact Hd|]. split; [exact HP|].
  split. { intros i j Hi Hj. rewrite !HM by auto. rewrite (HFs i j Hi Hj). unfold symmetrise. lra. }
  split; [exact HM|]. split; [destruct tg; auto; congruence|]. split; [|split; [exact HFi|exact HFc]].
  rewrite (trace_ext N _ _ HM), (trace_plus N (fun i j => d * lw_F N (symmetrise S) tg i j)), !trace_scale, trace_symmetrise.
  assert (E : trace N (lw_F N (symmetrise S) tg) = trace N S); [|rewrite E; ring].
  destruct tg; [| |congruence].
  - rewrite (trace_ext N _ _ (HFi eq_refl)). unfold trace at 1. rewrite (sumn_ext N _ (fun _ => trace N S / INR N)).
    + rewrite sumn_const. field. apply Rgt_not_eq, lt_0_INR. lia.
    + intros i _. rewrite Nat.eqb_refl. reflexivity.
  - destruct (HFc eq_refl) as (r & Hr). rewrite (trace_ext N _ _ Hr). unfold trace. apply sumn_ext. intros i _. rewrite Nat.eqb_refl. reflexivity.
Qed.
Print Assumptions ledoit_wolf_convex.

(** Finding: fed the sample covariance of returns whose kurtosis is at least N/(N-1) (at most 2; a normal
    distribution has 3), the identity-target intensity is zero: the estimator returns the sample
    covariance unchanged, singular or not. *)
Theorem ledoit_wolf_never_shrinks_ordinary_returns :
  forall eig T N R_ out, correct_eig eig -> (2 <= N)%nat -> (1 <= T)%nat ->
    let S := emp_cov T (center T R_) in
    (forall i, (i < N)%nat -> INR N / (INR N - 1) * S i i ^ 2 <= fourth_moment T (center T R_) i) ->
    shrink_covariance_ledoit_wolf eig T N R_ N N S LwIdentity = Ok out -> mat_eq N out S.
Proof.
  intros eig T N R_ out HE HN HT S Hk H.
  assert (HS : psd N S) by apply emp_cov_psd.
  destruct (lw_ok _ _ _ _ _ _ _ _ _ HE HS ltac:(lia) H) as (_ & d & _ & Ed & HM & _).
  assert (Esy : symmetrise S = S).
  { apply functional_extensionality; intros i. apply functional_extensionality; intros j. unfold symmetrise, S. rewrite (emp_cov_sym T _ j i). lra. }
  rewrite Esy in *. apply lw_identity_zero in Ed; auto. subst d. intros i j Hi Hj. rewrite HM by auto. lra.
Qed.
Print Assumptions ledoit_wolf_never_shrinks_ordinary_returns.

(** The hypotheses are met: two assets, returns (1,-1,0,0) and (0,0,1,-1), kurtosis 2. *)
Definition lw_data : mat := fun t i => match t, i with 0%nat, 0%nat => 1 | 1%nat, 0%nat => -1 | 2%nat, 1%nat => 1 | 3%nat, 1%nat => -1 | _, _ => 0 end.
Lemma lw_data_centred : center 4 lw_data = lw_data.
Proof.
  apply functional_extensionality; intros t. apply functional_extensionality; intros i. unfold center. simpl.
  destruct i as [|[|i]]; simpl; lra.
Qed.
Example lw_kurtosis : forall i, (i < 2)%nat -> INR 2 / (INR 2 - 1) * emp_cov 4 (center 4 lw_data) i i ^ 2 <= fourth_moment 4 (center 4 lw_data) i.
Proof.
  intros i Hi. rewrite lw_data_centred. unfold emp_cov, fourth_moment. destruct i as [|[|i]]; [| |lia]; simpl; lra.
Qed.

(** OAS: convex combination of the empirical covariance and the scaled identity; positive semidefinite;
    same total variance. *)
Theorem oas_convex :
  forall eig T N X c out, correct_eig eig -> shrink_covariance_oas eig T N X c = Ok out ->
    let E := emp_cov T (if c then X else center T X) in
    exists s, 0 <= s <= 1 /\ psd N out /\ symmetric N out /\ trace N out = trace N E /\
      mat_eq N out (fun i j => (1 - s) * E i j + (if Nat.eqb i j then s * (trace N E / INR N) else 0)).
Proof.
  intros eig T N X c out HE H E. destruct (oas_ok _ _ _ _ _ _ HE H) as (s & Hs & HM & _). fold E in HM.
  assert (HN : (1 <= N)%nat).
  { unfold shrink_covariance_oas in H. destruct (Nat.eqb T 0); [discriminate|]. destruct (Nat.eqb_spec N 0); [discriminate|lia]. }
  assert (HN0 : 0 < INR N) by (apply lt_0_INR; lia).
  exists s. split; [exact Hs|]. split.
  { intros x. rewrite (mat_eq_quad N _ _ x HM). apply (psd_plus N (fun i j => (1 - s) * E i j) (fun i j => s * (trace N E / INR N * eye i j))).
    - apply psd_scale; [lra|apply emp_cov_psd].
    - apply psd_scale; [lra|]. apply psd_eye. apply Rmult_le_pos; [apply psd_trace, emp_cov_psd|apply Rlt_le, Rinv_0_lt_compat; auto]. }
  split. { intros i j Hi Hj. rewrite !HM by auto. unfold E. rewrite (emp_cov_sym T _ i j). unfold eye, delta. rewrite (Nat.eqb_sym i j). reflexivity. }
  split.
  { rewrite (trace_ext N _ _ HM), (trace_plus N (fun i j => (1 - s) * E i j)), !trace_scale, trace_eye. field. lra. }
  intros i j Hi Hj. rewrite HM by auto. unfold eye, delta. destruct (Nat.eqb i j); ring.
Qed.
Print Assumptions oas_convex.

Example oas_case : exists out, shrink_covariance_oas rayleigh 4 2 lw_data false = Ok out.
Proof. apply oas_total; [apply rayleigh_correct|lia|lia]. Qed.

(** Jorion: the estimate shrinks every mean towards one number, the mean of the minimum-variance
    portfolio, with intensity (N+2)/((N+2)+T q) in (0,1]; that portfolio's mean is unchanged. *)
Theorem jorion_shrinks_to_minimum_variance_mean :
  forall inv N mu S T out,
    (forall n A B, inv n A = Some B -> is_inverse n A B) -> psd N S ->
    shrink_mean_jorion inv N mu N N S T = Ok out ->
    exists w v Si,
      is_inverse N (fun i j => symmetrise S i j + jit * eye i j) Si /\
      min_variance_portfolio N (fun i j => symmetrise S i j + jit * eye i j) w /\
      let g := dot N w mu in
      v = (INR N + 2) / (INR N + 2 + INR (Z.to_nat T) * quad N Si (fun i => mu i - g)) /\
      0 < v <= 1 /\
      (forall i, out i = (1 - v) * mu i + v * g) /\
      dot N w out = g.
Proof. intros. eapply jorion_facts; eauto. Qed.
Print Assumptions jorion_shrinks_to_minimum_variance_mean.

(** Fewer than three assets, or no observations, are rejected. *)
Theorem jorion_rejects : forall inv N mu S T, (N < 3)%nat \/ (T <= 0)%Z -> shrink_mean_jorion inv N mu N N S T = Err ValueError.
Proof.
  intros inv N mu S T H. unfold shrink_mean_jorion. destruct H as [H|H].
  - destruct (Nat.leb_spec N 2); [|lia]. rewrite orb_true_r. reflexivity.
  - destruct (Z.leb_spec T 0); [reflexivity|lia].
Qed.
Print Assumptions jorion_rejects.

(** A case: identity covariance in three dimensions. *)
Definition diag_inv : inv_oracle := fun _ A => Some (fun i j => if Nat.eqb i j then / A i i else 0).
Example jorion_case : exists out, shrink_mean_jorion diag_inv 3 (fun i => INR i) 3 3 eye 10 = Ok out.
Proof. eexists. reflexivity. Qed.

(** James-Stein with two or more assets stays between the target and the sample mean. *)
Theorem james_stein_between :
  forall eig pinv N mu S T target out, (2 <= N)%nat ->
    shrink_mean_james_stein eig pinv N mu N N S T target = Ok out ->
    exists tg, (match target with None => tg = (fun _ => sumn N mu / INR N) | Some (k, tv) => k = N /\ tg = tv end) /\
      on_segment N tg mu out.
Proof. intros eig pinv N mu S T target out HN H. apply james_stein_ok in H as (_ & H); auto. Qed.
Print Assumptions james_stein_between.

(** Finding: with a single asset the estimate overshoots, moving away from the target. *)
Theorem james_stein_between_one_asset_refuted :
  ~ (forall eig pinv mu S T tv out, correct_eig eig -> shrink_mean_james_stein eig pinv 1 mu 1 1 S T (Some (1%nat, tv)) = Ok out ->
       on_segment 1 tv mu out).
Proof.
  intros H. destruct (ensure_psd_id rayleigh 1 (symmetrise eye) rayleigh_correct ltac:(lia)) as (P & EP & _).
  { intros x. rewrite quad_symmetrise, quad_eye. apply dot_self_nonneg. }
  destruct (H rayleigh (fun _ _ => eye) (fun _ => 1) eye 1%Z (fun _ => 0) (fun _ => 2)) as (s & Hs & E); [apply rayleigh_correct| |].
  - unfold shrink_mean_james_stein. cbn [Nat.eqb negb Z.leb]. simpl Z.leb. cbn [bind]. rewrite EP. cbn [bind].
    assert (Eq : quad 1 eye (fun _ : nat => 1 - 0) = 1) by (unfold quad, eye, delta; simpl; lra). rewrite Eq.
    simpl. destruct (Rleb_spec (1 * 1) 0); [lra|]. f_equal. apply functional_extensionality. intros _.
    rewrite Rmax_right by lra. lra.
  - specialize (E 0%nat ltac:(lia)). lra.
Qed.
Print Assumptions james_stein_between_one_asset_refuted.

(** * C35 *)
(** With span at least one: the variance of every portfolio is a weighted sum of its squared returns with
    non-negative weights summing to one (so the matrix is positive semidefinite), the newest weighing
    2/(span+1), and older ones a constant factor less. *)
Theorem ewma_is_weighted_covariance :
  forall T N X span mp out, 1 <= span -> covariance_ewma T N X span mp = Ok out ->
    exists w : nat -> R,
      (forall t, 0 <= w t) /\ sumn T w = 1 /\
      (forall x, quad N out x = sumn T (fun t => w t * (dot N (X t) x) ^ 2)) /\
      (forall t, (1 <= t)%nat -> (S t < T)%nat -> w t = (1 - 2 / (span + 1)) * w (S t)) /\
      ((2 <= T)%nat -> w (T - 1)%nat = 2 / (span + 1)) /\
      symmetric N out /\ psd N out.
Proof.
  intros T N X span mp out Hs H. unfold covariance_ewma in H. destruct (_ <? _)%Z; [discriminate|].
  destruct (Reqb_spec (span + 1) 0); [lra|]. destruct T as [|t]; [discriminate|]. injection H as <-.
  set (lam := 1 - 2 / (span + 1)).
  assert (Hl : 0 <= lam <= 1).
  { assert (0 < 2 / (span + 1)) by (apply Rmult_lt_0_compat; [lra|apply Rinv_0_lt_compat; lra]).
    assert (2 / (span + 1) <= 1) by (apply Rmult_le_reg_r with (span + 1); [lra|]; unfold Rdiv; rewrite Rmult_assoc, Rinv_l by lra; lra).
    unfold lam. lra. }
  exists (ewma_weight lam (S t)). split; [intros; apply ewma_weight_nonneg; auto|]. split; [apply ewma_weights_sum|].
  split; [intros; apply ewma_quad|]. split.
  { intros u Hu Hlt. unfold ewma_weight. destruct u; [lia|]. replace (S t - 1 - S u)%nat with (S (S t - 1 - S (S u))) by lia. simpl. fold lam. ring. }
  split.
  { intros Ht. unfold ewma_weight. replace (S t - 1)%nat with t by lia. destruct t; [lia|]. rewrite Nat.sub_diag. simpl. unfold lam. lra. }
  split; [apply symmetrise_sym|].
  intros x. rewrite ewma_quad. apply sumn_nonneg. intros u _. apply Rmult_le_pos; [apply ewma_weight_nonneg; auto|apply pow2_ge_0].
Qed.
Print Assumptions ewma_is_weighted_covariance.

(** Finding: spans below one are accepted and can give negative variances. *)
Theorem ewma_psd_any_span_refuted :
  ~ (forall T N X span out, covariance_ewma T N X span 1 = Ok out -> psd N out).
Proof.
  intros H. specialize (H 2%nat 1%nat (fun t _ => if Nat.eqb t 0 then 1 else 0) 0).
  unfold covariance_ewma in H. cbn [Z.of_nat Z.ltb] in H. simpl Z.ltb in H. cbv iota in H.
  destruct (Reqb_spec (0 + 1) 0); [lra|]. specialize (H _ eq_refl (fun _ => 1)). unfold quad in H. simpl in H. unfold symmetrise in H. simpl in H. lra.
Qed.
Print Assumptions ewma_psd_any_span_refuted.

Example ewma_case : exists out, covariance_ewma 4 2 lw_data 3 1 = Ok out.
Proof. unfold covariance_ewma. simpl Z.ltb. cbv iota. destruct (Reqb_spec (3 + 1) 0); [lra|]. eexists. reflexivity. Qed.

(** * C36 *)
Theorem robust_means_within_range :
  (forall x tol n, x <> [] -> within x (huber x tol n)) /\
  (forall x perm nb auto out, x <> [] -> Permutation perm (seq 0 (List.length x)) ->
     median_of_means x perm nb auto = Ok out -> within x out).
Proof. split; [exact huber_within|]. intros. eapply mom_within; eauto. Qed.
Print Assumptions robust_means_within_range.

(** Median of means: equivariant under positive affine maps; the blocks partition the data into B groups
    whose sizes differ by at most one; corrupting the data in a strict minority of the blocks, by any
    amount, cannot move the estimate outside the range of the remaining data. *)
Theorem median_of_means_affine :
  forall x perm nb auto out k c, x <> [] -> 0 < k -> Permutation perm (seq 0 (List.length x)) ->
    median_of_means x perm nb auto = Ok out ->
    median_of_means (map (fun v => k * v + c) x) perm nb auto = Ok (k * out + c).
Proof. intros. apply mom_affine; auto. Qed.
Print Assumptions median_of_means_affine.

Theorem median_of_means_blocks :
  forall x perm nb auto out, x <> [] -> Permutation perm (seq 0 (List.length x)) ->
    median_of_means x perm nb auto = Ok out ->
    exists blocks, out = median (map rmean blocks) /\ Permutation (List.concat blocks) x /\
      (forall b, In b blocks -> b <> []) /\
      (forall b b', In b blocks -> In b' blocks -> (List.length b <= S (List.length b'))%nat) /\
      (forall b, nb = Some b -> List.length blocks = Nat.min (Z.to_nat b) (List.length x)) /\
      (nb = Some 1%Z -> out = rmean (map (fun i => nth i x 0) perm)) /\
      (forall lo hi bad, (2 * List.length (filter bad blocks) < List.length blocks)%nat ->
         (forall b, In b blocks -> bad b = false -> forall a, In a b -> lo <= a <= hi) -> lo <= out <= hi).
Proof.
  intros x perm nb auto out Hne HP H. destruct (mom_value _ _ _ _ _ H Hne) as (B & EB & HB & Eo).
  destruct (blocks_facts x perm B HP HB) as (HC & HL & Hb). exists (blocks_of x perm B).
  assert (HT : (1 <= List.length x)%nat) by (destruct x; [congruence|simpl; lia]).
  destruct (mom_blocks_range _ _ _ _ EB HT) as (_ & Hnb).
  split; [exact Eo|]. split; [exact HC|]. split; [intros b Hi; apply (Hb b Hi)|]. split.
  { intros b b' Hi Hi'. assert (HLn := cut_lengths (block_sizes (List.length x) B) (map (fun i => nth i x 0) perm)).
    rewrite map_length, block_sizes_total in HLn by lia. apply Permutation_length in HP as HPl. rewrite seq_length in HPl.
    specialize (HLn (eq_sym HPl)). fold (blocks_of x perm B) in HLn.
    assert (I1 : In (List.length b) (block_sizes (List.length x) B)) by (rewrite <- HLn; apply in_map; auto).
    assert (I2 : In (List.length b') (block_sizes (List.length x) B)) by (rewrite <- HLn; apply in_map; auto).
    apply block_sizes_pos in I1; [|lia]. apply block_sizes_pos in I2; [|lia]. lia. }
  split. { intros b Eb. rewrite HL. destruct (Hnb b Eb) as (H1 & ->). lia. }
  split.
  { intros En. destruct (Hnb _ En) as (_ & ->). rewrite Eo. unfold blocks_of. replace (Z.to_nat (Z.min 1 (Z.of_nat (List.length x)))) with 1%nat by lia.
    unfold block_sizes. cbn [seq map cut]. rewrite Nat.div_1_r. rewrite Nat.mod_1_r. cbn [Nat.ltb Nat.leb]. rewrite Nat.add_0_r.
    apply Permutation_length in HP. rewrite seq_length in HP. rewrite <- HP at 1. rewrite <- (map_length (fun i => nth i x 0) perm), firstn_all. reflexivity. }
  intros lo hi bad Hmaj Hgood. apply (mom_breakdown x perm nb auto out lo hi B); auto. exists bad. rewrite HL in Hmaj. auto.
Qed.
Print Assumptions median_of_means_blocks.

Example mom_case : median_of_means [1; 2; 1000] [0; 1; 2]%nat (Some 3%Z) 2 = Ok 2.
Proof.
  unfold median_of_means. cbn [List.length]. unfold mom_blocks. simpl Z.leb. cbv iota. cbn [bind].
  simpl. unfold rmean. simpl. unfold median. simpl. unfold rsort, take, argsort_by. simpl.
  repeat match goal with |- context [Rleb ?a ?b] => destruct (Rleb_spec a b); [try lra|try lra]; simpl end; f_equal; lra.
Qed.
