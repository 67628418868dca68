(** Entropy pooling: the posterior obeys the views and is the closest such distribution to the prior. *)
From Verif Require Import RBase QpBase OptModel MomSpec BlModel EpModel EpSpec EpProofs EpProofs2 EpProofs3 EpProofs4 EpProofs5.
Open Scope R_scope.
Open Scope list_scope.

(** Whatever method is used, if the multipliers returned by the solver meet the first-order conditions and the rows
    include "probabilities sum to one", the posterior is strictly positive, sums to one and obeys every view. *)
Theorem entropy_pooling_obeys : forall minimize p A G method q, sound minimize ->
  entropy_pooling minimize p A G method = Ok q -> has_ones (List.length p) A ->
  (forall s, 0 < q s) /\ obeys (List.length p) A (opt_rows G) q.
Proof. exact ep_obeys_l. Qed.
Print Assumptions entropy_pooling_obeys.

(** It is the closest to the prior (the caller's weights, normalised or not) of all obeying distributions that give every
    scenario at least [e^-700], and the only closest one. *)
Theorem entropy_pooling_closest : forall minimize p A G method q, sound minimize ->
  entropy_pooling minimize p A G method = Ok q -> has_ones (List.length p) A ->
  closest_above (exp (-700)) (List.length p) (of_list p) A (opt_rows G) q.
Proof. exact ep_floor_l. Qed.
Print Assumptions entropy_pooling_closest.

(** When no posterior probability sits at that floor, it is the closest of all obeying distributions. *)
Theorem entropy_pooling_closest_of_all : forall minimize p A G method q, sound minimize ->
  entropy_pooling minimize p A G method = Ok q -> has_ones (List.length p) A ->
  (forall s, (s < List.length p)%nat -> exp (-700) < q s) -> closest (List.length p) (of_list p) A (opt_rows G) q.
Proof. exact ep_closest_l. Qed.
Print Assumptions entropy_pooling_closest_of_all.

(** Solver and method do not matter: two successful calls return the same probabilities. *)
Theorem entropy_pooling_solver_irrelevant : forall minimize minimize' p A G method method' q q', sound minimize -> sound minimize' ->
  entropy_pooling minimize p A G method = Ok q -> entropy_pooling minimize' p A G method' = Ok q' -> has_ones (List.length p) A ->
  forall s, (s < List.length p)%nat -> q s = q' s.
Proof.
  intros minimize minimize' p A G method method' q q' So So' H H' Ho.
  destruct (ep_floor_l _ _ _ _ _ _ So H Ho) as [O [F M]]. destruct (ep_floor_l _ _ _ _ _ _ So' H' Ho) as [O' [F' M']].
  destruct (M' q O F) as [K U]. apply U. apply M; auto.
Qed.
Print Assumptions entropy_pooling_solver_irrelevant.

(** Scaling the prior weights does not matter either. *)
Theorem entropy_pooling_prior_scale : forall minimize p c A G method method' q q', sound minimize -> 0 < c ->
  entropy_pooling minimize p A G method = Ok q -> entropy_pooling minimize (map (fun x => c * x) p) A G method' = Ok q' -> has_ones (List.length p) A ->
  forall s, (s < List.length p)%nat -> q s = q' s.
Proof.
  intros minimize p c A G method method' q q' So Hc H H' Ho.
  assert (L : List.length (map (fun x => c * x) p) = List.length p) by apply map_length.
  destruct (ep_floor_l _ _ _ _ _ _ So H Ho) as [O [F M]]. rewrite <- L in Ho. destruct (ep_floor_l _ _ _ _ _ _ So H' Ho) as [O' [F' M']].
  rewrite L in *. destruct (ep_inv _ _ _ _ _ _ H) as [_ [pn [_ [E _]]]]. destruct (normalize_positive_inv _ _ E) as [_ [Pp _]].
  assert (K : forall w, obeys (List.length p) A (opt_rows G) w -> kl (List.length p) w (of_list (map (fun x => c * x) p)) = kl (List.length p) w (of_list p) + ln (/ c)).
  { intros w [[W1 W2] _]. rewrite <- kl_scale; auto.
    - apply kl_ext; auto. intros s Hs. unfold of_list. rewrite (nth_map_lt (fun x => c * x) p s 0 0) by auto. field. lra.
    - apply Rinv_0_lt_compat; auto.
    - intros s Hs. apply of_list_pos; auto. }
  destruct (M' q O F) as [K1 U]. apply U. rewrite !K by auto. destruct (M q' O' F') as [K2 _]. lra.
Qed.
Print Assumptions entropy_pooling_prior_scale.

(** Views no distribution obeys are refused. *)
Theorem entropy_pooling_refuses : forall minimize p A G method, sound minimize -> has_ones (List.length p) A ->
  (forall q, ~ obeys (List.length p) A (opt_rows G) q) -> exists e, entropy_pooling minimize p A G method = Err e.
Proof.
  intros minimize p A G method So Ho N. destruct (entropy_pooling minimize p A G method) as [q|e] eqn:E; eauto. exfalso.
  apply (N q). apply (ep_obeys_l _ _ _ _ _ _ So E Ho).
Qed.
Print Assumptions entropy_pooling_refuses.

(** If some strictly positive distribution obeys the views, a strictly positive closest one exists; a solver that finds
    the multipliers whenever there are any returns it, as long as its probabilities exceed [e^-700]. *)
Theorem entropy_pooling_answers : forall minimize p A G method, sound minimize -> finds minimize -> supported method ->
  p <> [] -> (forall x, In x p -> 0 < x) -> has_ones (List.length p) A ->
  (exists q0, obeys (List.length p) A (opt_rows G) q0 /\ forall s, (s < List.length p)%nat -> 0 < q0 s) ->
  exists q, closest (List.length p) (of_list p) A (opt_rows G) q /\ (forall s, (s < List.length p)%nat -> 0 < q s) /\
    ((forall s, (s < List.length p)%nat -> exp (-700) < q s) ->
     exists q', entropy_pooling minimize p A G method = Ok q' /\ forall s, (s < List.length p)%nat -> q' s = q s).
Proof.
  intros minimize p A G method So Fi Su Ne Pp Ho [q0 [O0 P0]].
  assert (Hp : forall s, (s < List.length p)%nat -> 0 < of_list p s) by (intros; apply of_list_pos; auto).
  destruct (closest_exists_l (List.length p) (of_list p) A (opt_rows G) Hp) as [q C]; [eauto|].
  exists q. split; auto. split; [apply (closest_positive_l _ _ _ _ q q0 Hp C O0 P0)|].
  intros Q. apply ep_finds_l; auto.
Qed.
Print Assumptions entropy_pooling_answers.

(** A solver that stops with a gradient of at most [eps] leaves every view within [eps (1+|target|)/(1000-eps)]. *)
Theorem entropy_pooling_tolerance : forall eps minimize p A G method q, sound_tol eps minimize -> 0 <= eps < 1000 ->
  entropy_pooling minimize p A G method = Ok q -> has_ones (List.length p) A ->
  (forall s, 0 < q s) /\ is_prob (List.length p) q /\
  (forall r b, In (r, b) A -> Rabs (expectation (List.length p) q r - b) <= eps * (1 + Rabs b) / (1000 - eps)) /\
  (forall r h, In (r, h) (opt_rows G) -> expectation (List.length p) q r <= h + eps * (1 + Rabs h) / (1000 - eps)).
Proof. exact ep_tolerance_l. Qed.
Print Assumptions entropy_pooling_tolerance.

(** The gradient passed to the solver is the derivative of the objective passed to it, in every multiplier. *)
Theorem dual_gradient_correct : forall d lam j, (j < du_K d)%nat -> unclipped d lam ->
  derivable_pt_lim (fun t => dual_objective d (fun k => lam k + t * delta j k)) 0 (dual_gradient d lam j).
Proof. exact gradient_l. Qed.
Print Assumptions dual_gradient_correct.

(** Multipliers minimising that objective within the bounds meet the first-order conditions. *)
Theorem dual_optimum_sound : forall p A G m lam, let d := Dual (List.length p) (fun s => ln (of_list p s)) (A ++ G) (List.length A) m in
  unclipped d lam -> dual_optimum d lam -> stationary d lam.
Proof. intros p A G m lam d U O. apply optimum_stationary_l; auto. unfold d, du_K. cbn. rewrite app_length. lia. Qed.
Print Assumptions dual_optimum_sound.

(** Without views the posterior is the normalised prior. *)
Theorem entropy_pooling_no_views : forall minimize p method q, sound minimize ->
  entropy_pooling minimize p [(fun _ => 1, 1)] None method = Ok q ->
  (forall s, (s < List.length p)%nat -> exp (-700) < of_list p s / rsum p) ->
  forall s, (s < List.length p)%nat -> q s = of_list p s / rsum p.
Proof. exact ep_no_views_l. Qed.
Print Assumptions entropy_pooling_no_views.

(** Bad requests: an unknown method, an empty prior or one with a non-positive weight, a solver failure. *)
Theorem entropy_pooling_requests : forall minimize p A G method,
  (~ supported method -> entropy_pooling minimize p A G method = Err ValueError) /\
  ((p = [] \/ exists x, In x p /\ x <= 0) -> entropy_pooling minimize p A G method = Err ValueError) /\
  (supported method -> p <> [] -> (forall x, In x p -> 0 < x) -> (forall d, minimize d = None) -> entropy_pooling minimize p A G method = Err RuntimeError).
Proof.
  intros minimize p A G method. unfold entropy_pooling, supported.
  set (m := match method with None => _ | Some _ => _ end).
  assert (MS : (String.eqb m "TNC" || String.eqb m "L-BFGS-B")%bool = true <-> (method = None \/ method = Some ""%string \/ method = Some "TNC"%string \/ method = Some "L-BFGS-B"%string)).
  { unfold m. destruct method as [s|]; [|split; auto]. destruct (String.eqb_spec s ""); [subst; split; auto|].
    rewrite orb_true_iff, !String.eqb_eq. split; [intros [-> | ->]; auto|]. intros [H|[H|[H|H]]]; try discriminate; injection H as ->; auto; congruence. }
  split; [|split].
  - intros N. destruct ((String.eqb m "TNC" || String.eqb m "L-BFGS-B")%bool); [exfalso; tauto|reflexivity].
  - intros H. destruct ((String.eqb m "TNC" || String.eqb m "L-BFGS-B")%bool); [|reflexivity]. cbn [guard].
    destruct (normalize_positive p) as [pn|e] eqn:E.
    + exfalso. destruct (normalize_positive_inv _ _ E) as [N [Pp _]]. destruct H as [H|[x [I L]]]; [auto|]. specialize (Pp x I). lra.
    + cbn [bind]. unfold normalize_positive in E. destruct p; [injection E as <-; reflexivity|]. destruct (negb _); cbn [guard] in E; [destruct (risclose _ _); discriminate|injection E as <-; reflexivity].
  - intros S N Pp F. apply MS in S. rewrite S. cbn [guard]. destruct (normalize_positive_ok p N Pp) as [pn ->]. cbn [bind]. rewrite F. reflexivity.
Qed.
Print Assumptions entropy_pooling_requests.

(** Refuted: "the posterior obeys the rows given" when they do not include "probabilities sum to one": one row asking for
    probability 0.3 of the first of two equally likely scenarios. *)
Theorem entropy_pooling_normalises_rows_refuted : exists q, sound best_minimize /\
  entropy_pooling best_minimize [1 / 2; 1 / 2] [(of_list [1; 0], 3 / 10)] None None = Ok q /\
  ~ holds_eq 2 [(of_list [1; 0], 3 / 10)] q.
Proof.
  destruct no_ones_l as [q [E N]]. exists q. split; [exact best_minimize_sound|]. split; auto.
  intros H. apply N. apply (H _ _ (or_introl eq_refl)).
Qed.
Print Assumptions entropy_pooling_normalises_rows_refuted.

(** The assumptions on the solver are satisfiable, and a concrete call: probability 0.3 of the second of two equally likely
    scenarios. *)
Example solver_exists : sound best_minimize /\ finds best_minimize /\ sound_tol 1 best_minimize.
Proof.
  split; [exact best_minimize_sound|]. split; [exact best_minimize_finds|]. intros d lam E. destruct (best_minimize_sound d lam E) as [S1 S2]. split.
  - intros k Hk. rewrite S1 by auto. rewrite Rabs_R0. lra.
  - intros k Hk. destruct (S2 k Hk) as [A [B _]]. split; auto. lra.
Qed.
Example entropy_pooling_two_states : exists q,
  entropy_pooling best_minimize [1 / 2; 1 / 2] [(of_list [0; 1], 3 / 10); (fun _ => 1, 1)] None (Some "L-BFGS-B"%string) = Ok q /\
  has_ones 2 [(of_list [0; 1], 3 / 10); (fun _ => 1, 1)] /\ q 0%nat = 7 / 10 /\ q 1%nat = 3 / 10 /\ exp (-700) < q 0%nat /\ exp (-700) < q 1%nat.
Proof.
  destruct (two_states (3 / 10) ltac:(lra) _ None (Some "L-BFGS-B"%string) eq_refl eq_refl) as [q [E [Q0 Q1]]]; [right; right; auto|].
  exists q. split; [exact E|]. split; [exists (fun _ => 1); split; [right; left; reflexivity|auto]|].
  split; [lra|]. split; [lra|]. rewrite Q0, Q1. split; apply exp_700_small; lra.
Qed.
(** Multipliers away from the clipping limits exist: those of a call without views. *)
Example unclipped_point : unclipped (Dual 2 (fun s => ln (of_list [1 / 2; 1 / 2] s)) [(fun _ => 1, 1)] 1 "TNC"%string) (fun _ => -1) /\
  stationary (Dual 2 (fun s => ln (of_list [1 / 2; 1 / 2] s)) [(fun _ => 1, 1)] 1 "TNC"%string) (fun _ => -1).
Proof.
  set (d := Dual _ _ _ _ _).
  assert (L : -2 <= ln (1 / 2) <= 0).
  { split; [|rewrite <- ln_1; apply Rlt_le, ln_increasing; lra].
    assert (ln (/ (1 / 2)) <= / (1 / 2) - 1) by (apply ln_le_sub1; lra). rewrite ln_Rinv in H by lra. lra. }
  assert (E : forall s, (s < 2)%nat -> ep_exponent d (fun _ => -1) s = ln (1 / 2)).
  { intros s Hs. unfold ep_exponent, d, du_K, row_of. cbn [du_rows du_logp List.length sumn nth fst]. unfold of_list. destruct s as [|[|s]]; [cbn [nth]; ring|cbn [nth]; ring|lia]. }
  split. { intros s Hs. rewrite E by exact Hs. lra. }
  split.
  - intros k Hk. assert (k = 0%nat) by (unfold d in Hk; cbn in Hk; lia). subst k.
    unfold dual_gradient. change (du_S d) with 2%nat. cbn [sumn]. unfold ep_x. rewrite !E by lia. rewrite clip_id by lra. rewrite exp_ln by lra.
    unfold rhs_of, row_of, d. cbn. lra.
  - intros k Hk. unfold d in Hk. cbn in Hk. lia.
Qed.
