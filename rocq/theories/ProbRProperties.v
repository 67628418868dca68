(** C03, C04, C05, C06: generators and effective number of scenarios. *)
From Verif Require Import RBase ProbRModel ProbRSpec ProbRProofs.
Open Scope R_scope.

(** C03.  Rejects a non-positive half-life; otherwise [n] weights (none when [n<=0]),
    a strictly positive distribution when [n>=1], and the weight of the observation at
    position [i] is the weight of the later position [j] times [2^(-(j-i)/half_life)]. *)
Theorem exp_decay_half_life_law : forall n h,
  match generate_exp_decay_probabilities n h with
  | Err e => h <= 0 /\ e = ValueError
  | Ok p => 0 < h /\ length p = Z.to_nat n /\
      ((0 < n)%Z -> positive_distribution p) /\
      forall i j, (i <= j < length p)%nat ->
        nth i p 0 = nth j p 0 * Rpower 2 (- (INR (j - i) / h))
  end.
Proof. exact exp_decay_l. Qed.
Print Assumptions exp_decay_half_life_law.

(** C03.  One half-life older is exactly half the weight. *)
Theorem exp_decay_half_at_half_life : forall n h p i j,
  generate_exp_decay_probabilities n h = Ok p ->
  (i <= j < length p)%nat -> INR (j - i) = h -> nth i p 0 = nth j p 0 / 2.
Proof. exact exp_decay_half_l. Qed.
Print Assumptions exp_decay_half_at_half_life.

(** C03.  Recent observations never weigh less than older ones. *)
Theorem exp_decay_monotone : forall n h p i j,
  generate_exp_decay_probabilities n h = Ok p ->
  (i <= j < length p)%nat -> nth i p 0 <= nth j p 0.
Proof. exact exp_decay_mono_l. Qed.
Print Assumptions exp_decay_monotone.

Example exp_decay_nonvacuous : exists p,
  generate_exp_decay_probabilities 5 2 = Ok p /\ length p = 5%nat /\ INR (3 - 1) = 2.
Proof.
  unfold generate_exp_decay_probabilities. destruct (Rleb_spec 2 0); [lra|].
  eexists. split; [reflexivity|]. split; [reflexivity|]. simpl. lra.
Qed.

(** C03, finding: a non-positive number of observations is not rejected; the result is the
    empty vector, which is not a distribution. *)
Theorem exp_decay_rejects_empty_refuted : exists n h p,
  (n <= 0)%Z /\ generate_exp_decay_probabilities n h = Ok p /\ p = [].
Proof.
  exists 0%Z, 1, []. split; [lia|]. split; [|reflexivity].
  unfold generate_exp_decay_probabilities. destruct (Rleb_spec 1 0); [lra|reflexivity].
Qed.
Print Assumptions exp_decay_rejects_empty_refuted.

(** C04.  The kernel weights are a strictly positive distribution. *)
Theorem gaussian_kernel_distribution : forall x v h x_T out,
  generate_gaussian_kernel_probabilities x v h x_T = Ok out -> positive_distribution out.
Proof. exact kernel_dist_l. Qed.
Print Assumptions gaussian_kernel_distribution.

(** C04.  One weight per scored value (default: the data), and the closer to the target
    (default: the last observation) the larger the weight; equidistant values tie. *)
Theorem gaussian_kernel_peaks_at_target : forall x v h x_T out t i j,
  generate_gaussian_kernel_probabilities x v h x_T = Ok out ->
  t = match x_T with Some t => t | None => last x 0 end ->
  let vs := match v with None => x | Some v => v end in
  length out = length vs /\
  ((i < length vs)%nat -> (j < length vs)%nat ->
   Rabs (nth i vs 0 - t) <= Rabs (nth j vs 0 - t) -> nth j out 0 <= nth i out 0).
Proof. exact kernel_mono_l. Qed.
Print Assumptions gaussian_kernel_peaks_at_target.

(** C04.  With an explicit positive bandwidth and something to score the call succeeds. *)
Theorem gaussian_kernel_total : forall x v h t vs, 0 < h -> vs <> [] ->
  vs = match v with None => x | Some v => v end ->
  exists out, generate_gaussian_kernel_probabilities x v (Some h) (Some t) = Ok out.
Proof. exact kernel_total_l. Qed.
Print Assumptions gaussian_kernel_total.

Example gaussian_kernel_nonvacuous : exists out,
  generate_gaussian_kernel_probabilities [1; 5; 2] None (Some 1) None = Ok out.
Proof.
  unfold generate_gaussian_kernel_probabilities. cbn [bind].
  destruct (Rleb_spec 1 0); [lra|]. cbn [bind last].
  match goal with |- context [Rleb ?s 0] => destruct (Rleb_spec s 0) as [H|H] end; [|eauto].
  exfalso. cbn [map rsum fold_right] in H.
  pose proof (kernel_pos 1 2 1). pose proof (kernel_pos 1 2 5). pose proof (kernel_pos 1 2 2). lra.
Qed.

(** C05. *)
Theorem effective_scenarios_entropy_bounds : forall p, distribution p ->
  1 <= compute_effective_number_scenarios p <= INR (length p).
Proof. exact ens_bounds_l. Qed.
Print Assumptions effective_scenarios_entropy_bounds.

Theorem effective_scenarios_entropy_max_iff_uniform : forall p, distribution p ->
  (compute_effective_number_scenarios p = INR (length p) <-> uniform p).
Proof. exact ens_max_l. Qed.
Print Assumptions effective_scenarios_entropy_max_iff_uniform.

Theorem effective_scenarios_entropy_min_iff_point_mass : forall p, distribution p ->
  (compute_effective_number_scenarios p = 1 <-> point_mass p).
Proof. exact ens_min_l. Qed.
Print Assumptions effective_scenarios_entropy_min_iff_point_mass.

(** C06. *)
Theorem effective_scenarios_hhi_bounds : forall p, distribution p ->
  1 <= compute_effective_number_scenarios_hhi p <= INR (length p).
Proof. exact hhi_bounds_l. Qed.
Print Assumptions effective_scenarios_hhi_bounds.

Theorem effective_scenarios_hhi_max_iff_uniform : forall p, distribution p ->
  (compute_effective_number_scenarios_hhi p = INR (length p) <-> uniform p).
Proof. exact hhi_max_l. Qed.
Print Assumptions effective_scenarios_hhi_max_iff_uniform.

Theorem effective_scenarios_hhi_min_iff_point_mass : forall p, distribution p ->
  (compute_effective_number_scenarios_hhi p = 1 <-> point_mass p).
Proof. exact hhi_min_l. Qed.
Print Assumptions effective_scenarios_hhi_min_iff_point_mass.

Example distributions_exist :
  distribution [1/4; 1/4; 1/2] /\ ~ uniform [1/4; 1/4; 1/2] /\ uniform [1/2; 1/2] /\
  distribution [1/2; 1/2] /\ distribution [0; 1; 0] /\ point_mass [0; 1; 0].
Proof.
  unfold distribution, uniform, point_mass. simpl.
  repeat split; try lra; try (intros x Hx; repeat (destruct Hx as [<-|Hx]; [lra|]); tauto); auto.
  intros H. specialize (H (1/2)). lra.
Qed.
