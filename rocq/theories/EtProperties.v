(** Entropy pooling and mean views with solvers that stop early: how good the posterior still is. *)
From Coq Require Import ClassicalEpsilon.
From Verif Require Import RBase QpBase OptModel MomSpec BlModel EpModel EpSpec EpProofs EpProofs2 EpProofs5 FvSpec FvProofs FvProofs2 FvProofs3 EtSpec EtProofs EtProofs2 EtProofs3.
Open Scope R_scope.
Open Scope list_scope.

(** The posterior is hardly further from the normalised prior than any distribution that obeys the views and gives every scenario
    [e^-700]: relative entropies differ by a multiple of the tolerance, of the size of the multipliers and of the number of
    inequality rows. *)
Theorem entropy_pooling_near_optimal : forall eps B minimize p A G method q q', sound_near eps B minimize -> 0 <= eps < 1000 ->
  entropy_pooling minimize p A G method = Ok q -> has_ones (List.length p) A ->
  obeys (List.length p) A (opt_rows G) q' -> (forall s, (s < List.length p)%nat -> exp (-700) <= q' s) ->
  kl (List.length p) q (fun s => of_list p s / rsum p) <=
    (kl (List.length p) q' (fun s => of_list p s / rsum p) + eps / 1000 * (B + INR (List.length (opt_rows G)) + 2)) / (1 - eps / 1000).
Proof. exact ep_near_optimal_l. Qed.
Print Assumptions entropy_pooling_near_optimal.

(** Two solvers, or two methods, return close probabilities. *)
Theorem entropy_pooling_solver_tolerance : forall eps B B' minimize minimize' p A G method method' q q', sound_near eps B minimize -> sound_near eps B' minimize' ->
  0 <= eps < 1000 -> entropy_pooling minimize p A G method = Ok q -> entropy_pooling minimize' p A G method' = Ok q' -> has_ones (List.length p) A ->
  l1_dist (List.length p) q q' <= 6 * sqrt (eps / 1000 * (B + B' + INR (List.length (opt_rows G)))) / (1 - eps / 1000).
Proof. exact ep_pair_l. Qed.
Print Assumptions entropy_pooling_solver_tolerance.

(** As the tolerance goes to zero with bounded multipliers, the posterior tends to the closest distribution obeying the views: the
    constant depends on the prior and the views only. *)
Theorem entropy_pooling_converges : forall p A G best, closest (List.length p) (of_list p) A (opt_rows G) best -> has_ones (List.length p) A ->
  (forall s, (s < List.length p)%nat -> exp (-700) < best s) ->
  exists C, 0 <= C /\ forall eps B minimize method q, 0 <= eps <= 500 -> sound_near eps B minimize -> entropy_pooling minimize p A G method = Ok q ->
    l1_dist (List.length p) q best <= C * sqrt (eps * (1 + B)).
Proof. exact ep_converges_l. Qed.
Print Assumptions entropy_pooling_converges.

(** Mean views, in any form and either mode: the posterior is a positive distribution under which every view holds up to the tolerance ... *)
Theorem flexible_mean_views_within : forall eps minimize argsort chol normals pr m rank b r, sound_tol eps minimize -> 0 <= eps < 1000 ->
  flexible_views minimize argsort chol normals pr (Views m WNone WNone WNone [] WNone [] rank b) = Ok r -> f_mean_views r <> [] ->
  (forall s, 0 < f_q r s) /\ is_prob (f_S r) (f_q r) /\
  mean_views_within (eps / (1000 - eps)) (f_assets r) (f_S r) (f_R r) (f_q r) (f_mean_views r).
Proof. exact fv_within_l. Qed.
Print Assumptions flexible_mean_views_within.

(** ... hardly further from the prior than any distribution meeting the views exactly ... *)
Theorem flexible_mean_views_near_optimal : forall eps B minimize argsort chol normals pr m rank b r q', sound_near eps B minimize -> 0 <= eps < 1000 ->
  flexible_views minimize argsort chol normals pr (Views m WNone WNone WNone [] WNone [] rank b) = Ok r -> f_mean_views r <> [] ->
  is_prob (f_S r) q' -> views_hold (f_assets r) (f_S r) (f_R r) q' MMean (f_mean_views r) -> (forall s, (s < f_S r)%nat -> exp (-700) <= q' s) ->
  let prior := fun s => f_p0 r s / sumn (f_S r) (f_p0 r) in
  kl (f_S r) (f_q r) prior <= (kl (f_S r) q' prior + eps / 1000 * (B + 2 * INR (List.length (f_mean_views r)) + 2)) / (1 - eps / 1000).
Proof. exact fv_near_optimal_l. Qed.
Print Assumptions flexible_mean_views_near_optimal.

(** ... and two solvers give close probabilities, posterior means and posterior covariances. *)
Theorem flexible_mean_views_solver_tolerance : forall eps B B' minimize minimize' argsort argsort' chol normals pr m rank b b' r r',
  sound_near eps B minimize -> sound_near eps B' minimize' -> 0 <= eps < 1000 ->
  flexible_views minimize argsort chol normals pr (Views m WNone WNone WNone [] WNone [] rank b) = Ok r ->
  flexible_views minimize' argsort' chol normals pr (Views m WNone WNone WNone [] WNone [] rank b') = Ok r' ->
  let dist := 6 * sqrt (eps / 1000 * (B + B' + 2 * INR (List.length (f_mean_views r)))) / (1 - eps / 1000) in
  l1_dist (f_S r) (f_q r) (f_q r') <= dist /\
  forall M, (forall s i, (s < f_S r)%nat -> Rabs (f_R r s i) <= M) ->
    (forall i, Rabs (f_mean r i - f_mean r' i) <= M * dist) /\
    (f_mean_views r <> [] -> forall i j, Rabs (f_cov r i j - f_cov r' i j) <= 3 * M ^ 2 * dist).
Proof.
  intros eps B B' minimize minimize' argsort argsort' chol normals pr m rank b b' r r' So So' He H H' dist.
  destruct (fv_pair_l _ _ _ _ _ _ _ _ _ _ _ _ _ _ _ _ So So' He H H') as [ES [ER [_ [D P]]]]. fold dist in D. split; auto. intros M HM.
  destruct (fv_mean_call _ _ _ _ _ _ _ _ _ H) as [_ [_ [E1 [E2 _]]]]. destruct (fv_mean_call _ _ _ _ _ _ _ _ _ H') as [_ [_ [E3 [E4 _]]]].
  rewrite ES, ER in E3, E4. rewrite E1, E2, E3, E4.
  assert (Z : forall K, 0 <= K -> K * l1_dist (f_S r) (f_q r) (f_q r') <= K * dist) by (intros; apply Rmult_le_compat_l; auto).
  assert (M0 : (f_S r = 0)%nat \/ 0 <= M). { destruct (f_S r) as [|n]; [left; auto|]. right. eapply Rle_trans; [apply Rabs_pos|apply (HM 0%nat 0%nat); lia]. }
  split.
  - intros i. rewrite !q_mean_eq. unfold mean_of. destruct M0 as [S0|M0].
    + rewrite S0. unfold expectation. cbn [sumn]. rewrite Rminus_eq_0, Rabs_R0.
      assert (X : f_mean_views r = [] \/ f_mean_views r <> []) by (destruct (f_mean_views r); [left; auto|right; discriminate]). destruct X as [X|X].
      * assert (D0 : 0 <= dist) by (eapply Rle_trans; [|exact D]; apply sumn_nonneg; intros; apply Rabs_pos).
        exfalso. destruct (fv_mean_call _ _ _ _ _ _ _ _ _ H) as [Se _]. rewrite S0 in Se. clear - Se. unfold fv_setup in Se. destruct pr as [lab T N Rm p|ml n mu cl rr cc cov num fn].
        -- destruct p as [p|].
           ++ apply bind_ok in Se. destruct Se as [pn [E Se]]. apply guard_ok in Se. destruct Se as [G Se]. injection Se as _ _ -> _ _ _. apply Nat.eqb_eq in G.
              destruct (normalize_positive_inv _ _ E) as [Ne [_ [L _]]]. apply Ne. apply length_zero_iff_nil. congruence.
           ++ apply guard_ok in Se. destruct Se as [G Se]. injection Se as _ _ -> _ _ _. discriminate.
        -- apply guard_ok in Se. destruct Se as [G Se]. apply guard_ok in Se. destruct Se as [_ Se]. apply bind_ok in Se. destruct Se as [L [_ Se]].
           destruct fn as [f|]; [destruct (f _ _ _) as [[T' N'] X']; apply guard_ok in Se; destruct Se as [_ Se]|]; injection Se as _ _ -> _ _ _; discriminate.
      * destruct (P X) as [[_ Q] _]. rewrite S0 in Q. cbn in Q. lra.
    + eapply Rle_trans; [apply exp_close; intros s Hs; apply HM; auto|]. apply Z; auto.
  - intros X i j. destruct (P X) as [P1 P2]. rewrite !np_cov_eq by (apply P1 || apply P2). destruct M0 as [S0|M0].
    + destruct P1 as [_ Q]. rewrite S0 in Q. cbn in Q. lra.
    + eapply Rle_trans; [apply (cov_close _ _ _ _ _ _ M); auto; intros; apply HM; auto|]. replace (3 * M ^ 2) with (3 * (M * M)) by ring. apply Z. nra.
Qed.
Print Assumptions flexible_mean_views_solver_tolerance.

(** A solver that stops early: it proposes fixed multipliers and reports success when they pass the test. *)
Definition try_minimize (eps B : R) (lam : vec) (d : dual) : option vec := if excluded_middle_informative (near_kkt eps B d lam) then Some lam else None.
Lemma try_sound eps B lam : sound_near eps B (try_minimize eps B lam).
Proof. intros d l. unfold try_minimize. destruct (excluded_middle_informative _); [|discriminate]. intros E. injection E as <-. auto. Qed.
(** Two scenarios with equal prior probabilities and the view that the first has probability 0.3. *)
Definition early : vec := of_list [ln (7 / 3) + 1 / 1000; - 1 - ln (7 / 5)].
Definition view_rows : rows := [(of_list [1; 0], 3 / 10); (fun _ => 1, 1)].
Lemma early_stop : exists q, entropy_pooling (try_minimize 1 4 early) [1 / 2; 1 / 2] view_rows None None = Ok q /\ 0 < q 0%nat < 3 / 10.
Proof.
  unfold entropy_pooling. cbn [String.eqb Ascii.eqb Bool.eqb orb guard opt_rows app].
  assert (E : normalize_positive [1 / 2; 1 / 2] = Ok [1 / 2; 1 / 2]).
  { unfold normalize_positive. cbn [existsb]. destruct (Rleb_spec (1 / 2) 0); [lra|]. cbn [orb negb guard].
    assert (C : risclose (rsum [1 / 2; 1 / 2]) 1 = true). { unfold risclose. apply Rleb_true. cbn [rsum fold_right]. replace (1 / 2 + (1 / 2 + 0) - 1) with 0 by field. rewrite Rabs_R0, Rabs_R1. lra. }
    rewrite C. reflexivity. }
  rewrite E. cbn [bind]. set (d := Dual _ _ _ _ _).
  assert (ln73 : 0 <= ln (7 / 3) <= 4 / 3). { split; [rewrite <- ln_1; apply Rlt_le, ln_increasing; lra|]. pose proof (ln_le_sub (7 / 3) ltac:(lra)). lra. }
  assert (ln75 : 0 <= ln (7 / 5) <= 2 / 5). { split; [rewrite <- ln_1; apply Rlt_le, ln_increasing; lra|]. pose proof (ln_le_sub (7 / 5) ltac:(lra)). lra. }
  assert (ln2 : -1 <= ln (1 / 2) <= 0). { split; [|rewrite <- ln_1; apply Rlt_le, ln_increasing; lra]. pose proof (ln_le_sub 2 ltac:(lra)). replace (1 / 2) with (/ 2) by field. rewrite ln_Rinv by lra. lra. }
  assert (z : 0 < exp (- (1 / 1000)) < 1). { split; [apply exp_pos|]. assert (Hz : exp (- (1 / 1000)) < exp 0) by (apply exp_increasing; lra). rewrite exp_0 in Hz. exact Hz. }
  assert (z2 : 1 - 1 / 1000 <= exp (- (1 / 1000))) by (pose proof (exp_ineq1_le (- (1 / 1000))); lra).
  assert (X1 : ep_x d early 1 = 7 / 10).
  { unfold ep_x, ep_exponent, du_K, row_of, d, early, view_rows. cbn [du_logp du_rows opt_rows app List.length sumn nth fst of_list].
    rewrite clip_id by lra. replace (ln (1 / 2) - 1 - (0 + 0 * (ln (7 / 3) + 1 / 1000) + 1 * (- 1 - ln (7 / 5)))) with (ln (1 / 2) + ln (7 / 5)) by ring. rewrite exp_plus, !exp_ln by lra. field. }
  assert (X0 : ep_x d early 0 = 3 / 10 * exp (- (1 / 1000))).
  { unfold ep_x, ep_exponent, du_K, row_of, d, early, view_rows. cbn [du_logp du_rows opt_rows app List.length sumn nth fst of_list].
    rewrite clip_id by lra. replace (ln (1 / 2) - 1 - (0 + 1 * (ln (7 / 3) + 1 / 1000) + 1 * (- 1 - ln (7 / 5)))) with (ln (1 / 2) + ln (7 / 5) + (- ln (7 / 3) + - (1 / 1000))) by ring.
    rewrite !exp_plus, exp_Ropp, !exp_ln by lra. field. }
  assert (Gd : forall k, dual_gradient d early k = 1000 * (rhs_of d k - (0 + row_of d k 0%nat * ep_x d early 0 + row_of d k 1%nat * ep_x d early 1))) by (intros; reflexivity).
  assert (N : near_kkt 1 4 d early).
  { split; [split|split].
    - intros k Hk. cbn in Hk. rewrite Gd, X0, X1. destruct k as [|[|]]; [| |lia]; unfold row_of, rhs_of, d, view_rows, of_list; cbn [du_rows opt_rows app nth fst snd]; apply Rabs_le; lra.
    - intros k Hk. cbn in Hk. lia.
    - intros k Hk. cbn in Hk. lia.
    - unfold du_K, d, early, view_rows. cbn [du_rows opt_rows app List.length sumn nth of_list]. rewrite (Rabs_right (ln _ + _)) by lra. rewrite Rabs_left by lra. lra. }
  unfold try_minimize. destruct (excluded_middle_informative _) as [_|C]; [|contradiction]. eexists. split; [reflexivity|]. cbv beta. change (sumn (du_S d) (ep_x d early)) with (0 + ep_x d early 0 + ep_x d early 1). rewrite X0, X1.
  split; [apply Rdiv_lt_0_compat; lra|]. apply Rmult_lt_reg_r with (0 + 3 / 10 * exp (- (1 / 1000)) + 7 / 10); [lra|].
  unfold Rdiv at 1. rewrite Rmult_assoc, Rinv_l by lra. lra.
Qed.
(** The view is missed, by less than the bound; the solver and the hypotheses are as in the theorems. *)
Example early_stop_close : exists q, sound_near 1 4 (try_minimize 1 4 early) /\ entropy_pooling (try_minimize 1 4 early) [1 / 2; 1 / 2] view_rows None None = Ok q /\
  has_ones 2 view_rows /\ q 0%nat < 3 / 10 /\ obeys 2 view_rows [] (of_list [3 / 10; 7 / 10]) /\
  kl 2 q (fun s => of_list [1 / 2; 1 / 2] s / rsum [1 / 2; 1 / 2]) <=
    (kl 2 (of_list [3 / 10; 7 / 10]) (fun s => of_list [1 / 2; 1 / 2] s / rsum [1 / 2; 1 / 2]) + 6 / 1000) / (999 / 1000).
Proof.
  destruct early_stop as [q [H L]]. exists q. assert (Ho : has_ones 2 view_rows) by (exists (fun _ => 1); split; [right; left; reflexivity|auto]).
  assert (O : obeys 2 view_rows [] (of_list [3 / 10; 7 / 10])).
  { split; [split; [intros s Hs; destruct s as [|[|]]; [| |lia]; cbn; lra|cbn; lra]|]. split; [|intros ? ? []]. intros r b [I|[I|[]]]; injection I as <- <-; unfold expectation; cbn; lra. }
  split; [apply try_sound|]. split; auto. split; auto. split; [lra|]. split; auto.
  pose proof (entropy_pooling_near_optimal 1 4 _ _ _ _ _ _ (of_list [3 / 10; 7 / 10]) (try_sound 1 4 early) ltac:(lra) H Ho O) as K. cbn [List.length opt_rows INR] in K.
  replace (1 - 1 / 1000) with (999 / 1000) in K by field. replace (1 / 1000 * (4 + 0 + 2)) with (6 / 1000) in K by field. apply K.
  intros s Hs. apply Rlt_le, exp_700_small. destruct s as [|[|]]; [| |lia]; cbn; lra.
Qed.
