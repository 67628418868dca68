(** Feasible requests succeed, infeasible ones raise (C61-C63), for solvers that are exact and complete
    and for constraints that bound every position. *)
From Verif Require Import RBase QpBase RiskSpec OptModel OptSpec OptProofs OptProofs2 OptProofs3 OptProofs4 OptProofs5 OptProofs6 ExistLib ExistSpec OptProofs7 OptProofs8.
Open Scope R_scope.

(** * C61 *)
(** Mean-variance: any covariance, any impact costs. *)
Theorem mean_variance_answers :
  forall solve n mean cov G A w0 lam target, exact_qp solve -> complete_qp solve ->
    costs_shaped n w0 lam -> bounded n (constrained n G A) ->
    answers_iff (mv_portfolio solve n mean cov G A w0 lam target)
      (exists y, constrained n G A y /\ meets n mean target y).
Proof.
  intros solve n mean cov G A w0 lam target Hs Hc Hsh Hb.
  destruct (mv_terms_total n cov w0 lam Hsh) as (P & q & Ht). unfold mv_portfolio. rewrite Ht. cbn [bind]. split.
  - intros Hy. apply (mv_solve_total solve n mean cov G A w0 lam); auto.
    + intros l El Hw. destruct w0 as [a|]; [|congruence]. apply (Hsh a l eq_refl El).
    + apply mv_attained. exact Hb.
  - intros Hn. destruct (mv_solve_target _ _ _ _ _ _ _ _) as [w|e] eqn:E.
    + destruct (mv_solve_spec _ _ _ _ _ _ _ _ _ Hs E) as (r & _ & _ & [Hf _]). exfalso. apply Hn. exists w. exact Hf.
    + unfold mv_solve_target in E. destruct (solve _); [discriminate|]. destruct (solve _); [discriminate|]. congruence.
Qed.
Print Assumptions mean_variance_answers.

(** The mean-variance frontier exists whenever the constraint set is not empty. *)
Theorem mean_variance_frontier_answers :
  forall solve lp n mean cov G A w0 lam num, exact_qp solve -> exact_cp lp -> complete_qp solve -> complete_cp lp ->
    costs_shaped n w0 lam -> bounded n (constrained n G A) ->
    answers_iff (mv_frontier solve lp n mean cov G A w0 lam num) (exists y, constrained n G A y).
Proof.
  intros solve lp n mean cov G A w0 lam num Hs Hlp Hc Hcp Hsh Hb.
  destruct (mv_terms_total n cov w0 lam Hsh) as (P & q & Ht). split.
  - intros Hy. destruct (max_exists n (constrained n G A) mean Hb (closed_constrained n G A) Hy) as [m Hm].
    apply (mv_frontier_total solve lp n mean cov G A w0 lam num P q m); auto.
    + intros l El Hw. destruct w0 as [a|]; [|congruence]. apply (Hsh a l eq_refl El).
    + apply mv_attained. exact Hb.
  - intros Hn. unfold mv_frontier. rewrite Ht. cbn [bind].
    destruct (mv_solve_target solve n mean P q G A None) as [w|e] eqn:E.
    + destruct (mv_solve_spec _ _ _ _ _ _ _ _ _ Hs E) as (r & _ & _ & [Hf _]). exfalso. apply Hn. exists w. apply Hf.
    + unfold mv_solve_target in E. destruct (solve _); [discriminate|]. destruct (solve _); [discriminate|]. cbn [bind]. congruence.
Qed.
Print Assumptions mean_variance_frontier_answers.

(** Mean-CVaR. *)
Theorem mean_cvar_answers :
  forall lp N T Rm p alpha w0 costs G A target, exact_cp lp -> complete_cp lp -> prob_vec T p -> 0 < alpha <= 1 ->
    costs_nonneg costs -> costs_shaped N w0 costs -> bounded N (constrained N G A) ->
    answers_iff (cvar_portfolio lp N T Rm p alpha w0 costs G A target)
      (exists y, constrained N G A y /\ meets N (cvar_mean T p Rm) target y).
Proof.
  intros lp N T Rm p alpha w0 costs G A target Hs Hc Hp Ha Hn Hsh Hb. split.
  - apply cvar_portfolio_total; auto.
  - intros Hno. unfold cvar_portfolio. assert (E : cvar_solve_target lp N T Rm p alpha (turnover w0 costs) G A target = Err RuntimeError).
    { unfold cvar_solve_target. destruct (lp _) as [x|] eqn:E; [|reflexivity]. exfalso. apply Hs in E as [E _].
      apply cvar_feasible_iff in E as [E1 E2]. apply Hno. exists x. split; [apply E1|exact E2]. }
    rewrite E. unfold cvar_init, turnover. destruct w0 as [a|]; [|reflexivity]. destruct costs as [c|]; [|reflexivity].
    destruct (Hsh a c eq_refl eq_refl) as [E1 E2]. unfold check_shapes. rewrite E1, E2, Nat.eqb_refl. reflexivity.
Qed.
Print Assumptions mean_cvar_answers.

Theorem mean_cvar_frontier_answers :
  forall lp N T Rm p alpha w0 costs G A num, exact_cp lp -> complete_cp lp -> prob_vec T p -> 0 < alpha <= 1 ->
    costs_nonneg costs -> costs_shaped N w0 costs -> bounded N (constrained N G A) ->
    answers_iff (OptModel.cvar_frontier lp N T Rm p alpha w0 costs G A num) (exists y, constrained N G A y).
Proof.
  intros lp N T Rm p alpha w0 costs G A num Hs Hc Hp Ha Hn Hsh Hb. split.
  - apply cvar_frontier_total; auto.
  - intros Hno. unfold OptModel.cvar_frontier. assert (E : cvar_solve_target lp N T Rm p alpha (turnover w0 costs) G A None = Err RuntimeError).
    { unfold cvar_solve_target. destruct (lp _) as [x|] eqn:E; [|reflexivity]. exfalso. apply Hs in E as [E _].
      apply cvar_feasible_iff in E as [E1 E2]. apply Hno. exists x. apply E1. }
    rewrite E. cbn [bind]. unfold cvar_init, turnover. destruct w0 as [a|]; [|reflexivity]. destruct costs as [c|]; [|reflexivity].
    destruct (Hsh a c eq_refl eq_refl) as [E1 E2]. unfold check_shapes. rewrite E1, E2, Nat.eqb_refl. reflexivity.
Qed.
Print Assumptions mean_cvar_frontier_answers.

(** * C62 *)
(** Every symmetric positive definite matrix has a Cholesky factor, so the jittered factorisation used by
    the robust and risk parity optimisers succeeds on every positive semidefinite matrix. *)
Theorem cholesky_factor_exists :
  forall n M, symmetric n M -> positive_definite n M -> exists L, is_cholesky n M L.
Proof. exact cholesky_exists. Qed.
Print Assumptions cholesky_factor_exists.
Theorem cholesky_psd_never_fails :
  forall chol n M, complete_chol chol -> psd n M -> exists L, cholesky_pd chol n M = Ok L.
Proof. exact cholesky_pd_total. Qed.
Print Assumptions cholesky_psd_never_fails.

(** Robust allocation without proportional costs: a penalised problem has an answer exactly when some
    portfolio satisfies the constraints ... *)
Theorem robust_lambda_answers :
  forall conelp chol n mean Sg G A lam, exact_cp conelp -> complete_cp conelp -> complete_chol chol -> psd n Sg ->
    bounded n (constrained n G A) -> 0 <= lam ->
    answers_iff (robust_lambda conelp chol n mean Sg None None G A lam) (exists y, constrained n G A y).
Proof.
  intros conelp chol n mean Sg G A lam Hs Hc Hch Hp Hb Hl. destruct (cholesky_pd_total chol n Sg Hch Hp) as [L EL].
  unfold robust_lambda, robust_init. rewrite EL. cbn [bind]. destruct (Rltb_spec lam 0); [lra|]. split.
  - intros [y Hy]. apply robust_socp_total; auto. exists y. split; [exact Hy|exact I].
  - intros Hn. unfold robust_socp. destruct (conelp _) as [x|] eqn:E; [|reflexivity]. exfalso. apply Hs in E as [E _].
    apply robust_feasible in E as [E _]. apply Hn. eauto.
Qed.
Print Assumptions robust_lambda_answers.

(** ... and a capped problem exactly when one of them also respects the cap. *)
Theorem robust_gamma_answers :
  forall conelp chol n mean Sg G A gm gs, exact_cp conelp -> complete_cp conelp -> exact_chol chol -> complete_chol chol -> psd n Sg ->
    bounded n (constrained n G A) -> 0 <= gm -> 0 <= gs ->
    exists L j, 0 <= j <= 1 / 10000000 /\ is_cholesky n (plus_jitter (symmetrise Sg) j) L /\
      answers_iff (robust_gamma conelp chol n mean Sg None None G A gm gs)
        (exists y, constrained n G A y /\ norm2 n (mv n L y) <= sqrt gs).
Proof.
  intros conelp chol n mean Sg G A gm gs Hs Hc Hce Hch Hp Hb Hm Hg. destruct (cholesky_pd_total chol n Sg Hch Hp) as [L EL].
  destruct (cholesky_pd_l chol n Sg L Hce EL) as (j & Hj & _ & HL). exists L, j. split; [exact Hj|]. split; [exact HL|].
  unfold robust_gamma, robust_init. rewrite EL. cbn [bind]. destruct (Rltb_spec gm 0); [lra|]. destruct (Rltb_spec gs 0); [lra|]. cbn [orb]. split.
  - intros [y Hy]. apply (robust_socp_total conelp n mean L gm (Some gs)); auto. exists y. exact Hy.
  - intros Hn. unfold robust_socp. destruct (conelp _) as [x|] eqn:E; [|reflexivity]. exfalso. apply Hs in E as [E _].
    apply robust_feasible in E as (E1 & E2 & E3). apply Hn. exists x. split; [exact E1|lra].
Qed.
Print Assumptions robust_gamma_answers.

(** * C63 *)
(** Risk parity: without a return target the call answers exactly when some long-only portfolio within
    the constraints has no negative marginal risk; no boundedness assumption is needed. *)
Theorem risk_parity_answers :
  forall conelp lp chol n mean cov G A rb lam mint bud, (1 <= n)%nat -> exact_cp conelp -> complete_cp conelp ->
    complete_chol chol -> psd n cov -> 0 <= lam -> risk_budgets n rb = Ok bud ->
    answers_iff (rrp_solve conelp lp chol n mean cov G A rb lam None mint)
      (exists x, parity_start n mean (symmetrise cov) G A None x).
Proof.
  intros conelp lp chol n mean cov G A rb lam mint bud Hn Hs Hc Hch Hp Hl Hb. split.
  - intros Hx. apply (rrp_solve_total conelp lp chol n mean cov G A rb lam None mint bud 0); auto. intros; discriminate.
  - intros Hno. unfold rrp_solve. assert (Hp' : psd n (symmetrise cov)) by (intros x; rewrite quad_symmetrise'; apply Hp).
    destruct (cholesky_pd_total chol n _ Hch Hp') as [L ->]. cbn [bind]. rewrite Hb. cbn [bind].
    destruct (Rltb_spec lam 0); [lra|]. cbn [fst]. destruct (conelp _) as [x|] eqn:E; [|reflexivity]. exfalso. apply Hs in E as [E _].
    apply rrp_sound in E as [[R1 R2 R3 R4 R5 R6 R7 R8 R9] _]; [|intros i Hi; apply Rlt_le, (risk_budgets_nonneg n rb bud i Hb Hi)].
    apply Hno. exists x. constructor; auto.
Qed.
Print Assumptions risk_parity_answers.

(** So risk parity without user constraints always answers for a covariance matrix, for any valid budgets
    and any regulator. *)
Theorem risk_parity_always_answers :
  forall conelp lp chol n mean cov rb lam mint bud, (1 <= n)%nat -> complete_cp conelp ->
    complete_chol chol -> psd n cov -> 0 <= lam -> risk_budgets n rb = Ok bud ->
    exists r, rrp_solve conelp lp chol n mean cov None None rb lam None mint = Ok r.
Proof.
  intros conelp lp chol n mean cov rb lam mint bud Hn Hc Hch Hp Hl Hb.
  apply (rrp_solve_total conelp lp chol n mean cov None None rb lam None mint bud 0); auto; [intros; discriminate|].
  apply simplex_start; [exact Hn| |intros x; rewrite quad_symmetrise'; apply Hp].
  intros i j Hi Hj. unfold symmetrise. ring.
Qed.
Print Assumptions risk_parity_always_answers.

(** With a return target it answers when a start meets the target after clipping to the maximal return. *)
Theorem risk_parity_target_answers :
  forall conelp lp chol n mean cov G A rb lam t mint bud, (1 <= n)%nat -> exact_cp lp -> complete_cp lp -> complete_cp conelp ->
    complete_chol chol -> psd n cov -> 0 <= lam -> risk_budgets n rb = Ok bud ->
    bounded n (return_set n G A) -> (exists x, return_set n G A x) ->
    exists m, is_max (return_set n G A) (dot n mean) m /\
      ((exists x, parity_start n mean (symmetrise cov) G A (Some (clip_target m t mint)) x) ->
       exists r, rrp_solve conelp lp chol n mean cov G A rb lam (Some t) mint = Ok r).
Proof.
  intros conelp lp chol n mean cov G A rb lam t mint bud Hn Hle Hlc Hc Hch Hp Hl Hb Hbd Hx.
  destruct (return_lp_total lp n mean G A Hlc Hbd Hx) as [m Hm]. exists m. split; [apply (return_lp_max lp); auto|].
  intros Hs. apply (rrp_solve_total conelp lp chol n mean cov G A rb lam (Some t) mint bud m); auto.
Qed.
Print Assumptions risk_parity_target_answers.

(** * The hypotheses can be met *)

(** Exact and complete solvers exist. *)
Definition best_chol (n : nat) (M : mat) : option mat :=
  match emdec (exists L, is_cholesky n M L) with
  | left e => Some (proj1_sig (ClassicalEpsilon.constructive_indefinite_description _ e))
  | right _ => None
  end.
Lemma best_chol_exact : exact_chol best_chol.
Proof. intros n M L H. unfold best_chol in H. destruct (emdec _) as [e|]; [|discriminate]. injection H as <-. apply (proj2_sig (ClassicalEpsilon.constructive_indefinite_description _ e)). Qed.
Lemma best_chol_complete : complete_chol best_chol.
Proof. intros n M L HL H. unfold best_chol in H. destruct (emdec _) as [e|k]; [discriminate|]. apply k. eauto. Qed.

Lemma simplex2_bounded : bounded 2 (constrained 2 lo2 bud2).
Proof.
  exists 1. intros x Hx i Hi. apply constrained2 in Hx. destruct i as [|[|i]]; [| |lia]; apply Rabs_le; lra.
Qed.
Lemma id2_psd : psd 2 id2.
Proof. intros x. rewrite quad2. unfold id2, delta. simpl. nra. Qed.

Example solvers_exist : exact_qp best_qp /\ complete_qp best_qp /\ exact_cp best_cp /\ complete_cp best_cp /\ exact_chol best_chol /\ complete_chol best_chol.
Proof. exact (conj best_qp_exact (conj best_qp_complete (conj best_cp_exact (conj best_cp_complete (conj best_chol_exact best_chol_complete))))). Qed.

(** Two assets, long-only and fully invested, expected returns 0 and 1: a target of 3/4 can be met, one of 2 cannot. *)
Example mean_variance_case :
  (exists x, mv_portfolio best_qp 2 mean2 id2 lo2 bud2 None None (Some (3 / 4)) = Ok x) /\
  mv_portfolio best_qp 2 mean2 id2 lo2 bud2 None None (Some 2) = Err RuntimeError.
Proof.
  assert (M : forall w, dot 2 mean2 w = w 1%nat) by (intros; rewrite dot2; unfold mean2, of_list; simpl; lra).
  assert (Hs : costs_shaped 2 None None) by (intros a c E; discriminate). split.
  - apply (mean_variance_answers best_qp 2 mean2 id2 lo2 bud2 None None (Some (3 / 4)) best_qp_exact best_qp_complete Hs simplex2_bounded).
    exists (pt2 0 1). split; [apply constrained2; unfold pt2, of_list; simpl; lra|]. unfold meets. rewrite M. unfold pt2, of_list. simpl. lra.
  - apply (mean_variance_answers best_qp 2 mean2 id2 lo2 bud2 None None (Some 2) best_qp_exact best_qp_complete Hs simplex2_bounded).
    intros (y & Hy & Ht). apply constrained2 in Hy. unfold meets in Ht. rewrite M in Ht. lra.
Qed.

Example mean_cvar_case : exists x, cvar_portfolio best_cp 2 1 (fun _ => mean2) (fun _ => 1) (1 / 2) None None lo2 bud2 (Some (1 / 2)) = Ok x.
Proof.
  assert (M : forall w, dot 2 mean2 w = w 1%nat) by (intros; rewrite dot2; unfold mean2, of_list; simpl; lra).
  apply (mean_cvar_answers best_cp 2 1 (fun _ => mean2) (fun _ => 1) (1 / 2) None None lo2 bud2 (Some (1 / 2)) best_cp_exact best_cp_complete);
    [split; [intros; lra|simpl; lra]|lra|intros c E; discriminate|intros a c E; discriminate|exact simplex2_bounded|].
  exists (pt2 0 1). split; [apply constrained2; unfold pt2, of_list; simpl; lra|]. unfold meets, cvar_mean, dot. simpl. unfold mean2, pt2, of_list. simpl. lra.
Qed.

(** A correlated pair. *)
Definition corr2 : mat := fun i j => if (i =? j)%nat then 1 else - (1 / 2).
Example risk_parity_case : exists r, rrp_solve best_cp best_cp best_chol 2 mean2 corr2 None None (Some [1; 3]) (1 / 2) None None = Ok r.
Proof.
  assert (Hb : exists bud, risk_budgets 2 (Some [1; 3]) = Ok bud).
  { unfold risk_budgets. cbn [length Nat.eqb guard existsb]. destruct (Rleb_spec 1 0); [lra|]. destruct (Rleb_spec 3 0); [lra|].
    cbn [orb negb guard]. destruct (risclose _ _); eauto. }
  destruct Hb as [bud Hb]. apply (risk_parity_always_answers best_cp best_cp best_chol 2 mean2 corr2 (Some [1; 3]) (1 / 2) None bud); auto using best_cp_complete, best_chol_complete; [|lra].
  intros x. rewrite quad2. unfold corr2. simpl. nra.
Qed.

Example robust_case : exists r, robust_lambda best_cp best_chol 2 mean2 corr2 None None lo2 bud2 (1 / 10) = Ok r.
Proof.
  apply (robust_lambda_answers best_cp best_chol 2 mean2 corr2 lo2 bud2 (1 / 10) best_cp_exact best_cp_complete best_chol_complete); [|exact simplex2_bounded|lra|].
  - intros x. rewrite quad2. unfold corr2. simpl. nra.
  - exists (pt2 0 1). apply constrained2. unfold pt2, of_list; simpl; lra.
Qed.
