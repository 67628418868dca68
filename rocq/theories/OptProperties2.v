(** The ridge of the mean-variance retry (C22). *)
From Verif Require Import RBase QpBase OptModel OptSpec OptProofs OptProofs6 ExistProperties.
Open Scope R_scope.

(** The ridge that may have been added is zero or exactly the larger of 1e-8 and 1e-8 times the average
    curvature [2 Sigma_ii + 2 lambda_i] of the objective -- so the optimum is perturbed by that much
    and no more. *)
Theorem mv_retry_ridge :
  forall solve n mean cov G A w0 lam target w, exact_qp solve -> (0 < n)%nat ->
    (forall l, lam = Some l -> w0 <> None -> length l = n) ->
    mv_portfolio solve n mean cov G A w0 lam target = Ok w ->
    let curvature i := 2 * cov i i + match w0, lam with Some _, Some l => 2 * nth i l 0 | _, _ => 0 end in
    exists r, (r = 0 \/ r = Rmax (1 / 100000000) (1 / 100000000 * (sumn n curvature / INR n))) /\
      minimises (fun w => constrained n G A w /\ meets n mean target w)
        (fun w => mv_cost n cov w0 lam w + r / 2 * dot n w w) w.
Proof.
  intros solve n mean cov G A w0 lam target w Hs Hn Hl H curvature. unfold mv_portfolio in H. apply bind_ok in H as ([P q] & Ht & H).
  destruct (mv_objective n cov w0 lam P q Hl Ht) as [k Hk].
  destruct (mv_solve_spec solve n mean P q G A target w Hs H) as (r & Hr & _ & Hf & Ho).
  exists r. split.
  - destruct Hr as [Hr|Hr]; [left; exact Hr|right]. rewrite Hr. unfold mv_ridge. f_equal. rewrite Nat.max_l by lia. unfold Rdiv. rewrite Rmult_assoc. f_equal. f_equal.
    unfold trace_of. apply sumn_ext. intros i Hi. unfold curvature. unfold mv_terms in Ht.
    destruct w0 as [w0|]; [destruct lam as [l|]|].
    + unfold quadratic_turnover in Ht. apply guard_ok in Ht as [_ Ht]. rewrite (Hl l eq_refl) in Ht by discriminate. rewrite Nat.eqb_refl in Ht. injection Ht as <- _.
      rewrite Nat.eqb_refl. reflexivity.
    + injection Ht as <- _. ring.
    + injection Ht as <- _. ring.
  - split; [exact Hf|]. intros w' Hw'. specialize (Ho w' Hw'). rewrite !Hk in Ho. lra.
Qed.
Print Assumptions mv_retry_ridge.

Example mv_retry_ridge_case : exists x, mv_portfolio best_qp 2 mean2 id2 lo2 bud2 None None (Some (3 / 4)) = Ok x.
Proof. exact (proj1 mean_variance_case). Qed.
