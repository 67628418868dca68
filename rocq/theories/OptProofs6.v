(** Concrete exact solvers and instances, used to show hypotheses are met and to refute claims. *)
From Coq Require Import ClassicalDedekindReals Classical_Prop ClassicalEpsilon.
From Verif Require Import RBase QpBase OptModel OptSpec OptProofs OptProofs2 OptProofs3 OptProofs4 OptProofs5.
Open Scope R_scope.

Definition emdec (P : Prop) : {P} + {~ P} :=
  match ClassicalDedekindReals.sig_not_dec P with
  | left nn => left (Classical_Prop.NNPP P nn)
  | right n => right n
  end.

(** A solver that knows a list of candidate answers and returns the first that is optimal. *)
Fixpoint try_qp (cs : list vec) (p : qp) : option vec :=
  match cs with [] => None | c :: cs' => if emdec (qp_optimum p c) then Some c else try_qp cs' p end.
Fixpoint try_cp (cs : list vec) (p : cp) : option vec :=
  match cs with [] => None | c :: cs' => if emdec (cp_optimum p c) then Some c else try_cp cs' p end.

Lemma try_qp_exact cs : exact_qp (try_qp cs).
Proof. induction cs as [|c cs IH]; intros p x H; simpl in H; [discriminate|]. destruct (emdec _); [injection H as <-; auto|apply IH; auto]. Qed.
Lemma try_cp_exact cs : exact_cp (try_cp cs).
Proof. induction cs as [|c cs IH]; intros p x H; simpl in H; [discriminate|]. destruct (emdec _); [injection H as <-; auto|apply IH; auto]. Qed.

Lemma try_qp_hit c cs p : qp_optimum p c -> try_qp (c :: cs) p = Some c.
Proof. intros H. simpl. destruct (emdec _); [reflexivity|contradiction]. Qed.
Lemma try_qp_skip c cs p : ~ qp_feasible p c -> try_qp (c :: cs) p = try_qp cs p.
Proof. intros H. simpl. destruct (emdec _) as [[Hf _]|]; [contradiction|reflexivity]. Qed.
Lemma try_cp_hit c cs p : cp_optimum p c -> try_cp (c :: cs) p = Some c.
Proof. intros H. simpl. destruct (emdec _); [reflexivity|contradiction]. Qed.

(** A solver that returns some optimum whenever there is one. *)
Definition best_qp (p : qp) : option vec :=
  match emdec (exists x, qp_optimum p x) with
  | left H => Some (proj1_sig (constructive_indefinite_description _ H)) | right _ => None end.
Definition best_cp (p : cp) : option vec :=
  match emdec (exists x, cp_optimum p x) with
  | left H => Some (proj1_sig (constructive_indefinite_description _ H)) | right _ => None end.
Lemma best_qp_exact : exact_qp best_qp.
Proof. intros p x H. unfold best_qp in H. destruct (emdec _) as [e|]; [|discriminate]. injection H as <-. apply (proj2_sig (constructive_indefinite_description _ e)). Qed.
Lemma best_qp_complete : complete_qp best_qp.
Proof. intros p x Hx H. unfold best_qp in H. destruct (emdec _) as [e|n]; [discriminate|]. apply n. exists x. exact Hx. Qed.
Lemma best_cp_exact : exact_cp best_cp.
Proof. intros p x H. unfold best_cp in H. destruct (emdec _) as [e|]; [|discriminate]. injection H as <-. apply (proj2_sig (constructive_indefinite_description _ e)). Qed.
Lemma best_cp_complete : complete_cp best_cp.
Proof. intros p x Hx H. unfold best_cp in H. destruct (emdec _) as [e|n]; [discriminate|]. apply n. exists x. exact Hx. Qed.

Definition try_chol (n0 : nat) (L : mat) : nat -> mat -> option mat :=
  fun n M => if emdec (is_cholesky n M L) then Some L else None.
Lemma try_chol_exact n0 L : exact_chol (try_chol n0 L).
Proof. intros n M L' H. unfold try_chol in H. destruct (emdec _); [injection H as <-; auto|discriminate]. Qed.

(** Two assets, identity covariance, long-only and fully invested. *)
Definition id2 : mat := fun i j => delta i j.
Definition lo2 : option rows := Some [(ropp (eye_row 0), 0); (ropp (eye_row 1), 0)].
Definition bud2 : option rows := Some [(cst 1, 1)].
Definition mean2 : vec := of_list [0; 1].
Definition pt2 (a b : R) : vec := of_list [a; b].

Lemma dot2 u v : dot 2 u v = u 0%nat * v 0%nat + u 1%nat * v 1%nat.
Proof. unfold dot. simpl. ring. Qed.
Lemma quad2 P w : quad 2 P w = P 0%nat 0%nat * w 0%nat * w 0%nat + P 0%nat 1%nat * w 0%nat * w 1%nat
  + (P 1%nat 0%nat * w 1%nat * w 0%nat + P 1%nat 1%nat * w 1%nat * w 1%nat).
Proof. unfold quad. simpl. ring. Qed.

Lemma constrained2 w : constrained 2 lo2 bud2 w <-> 0 <= w 0%nat /\ 0 <= w 1%nat /\ w 0%nat + w 1%nat = 1.
Proof.
  unfold constrained, lo2, bud2; simpl. split.
  - intros [H1 H2]. specialize (H2 (cst 1) 1 (or_introl eq_refl)). rewrite dot2 in H2. unfold cst in H2.
    pose proof (H1 _ _ (or_introl eq_refl)) as A. pose proof (H1 _ _ (or_intror (or_introl eq_refl))) as B.
    rewrite dot2 in A, B. unfold ropp, eye_row, delta in A, B. simpl in A, B. lra.
  - intros (H0 & H1 & H2). split.
    + intros g h [E|[E|[]]]; injection E as <- <-; rewrite dot2; unfold ropp, eye_row, delta; simpl; lra.
    + intros a b [E|[]]. injection E as <- <-. rewrite dot2. unfold cst. lra.
Qed.

Definition P2 : mat := fun i j => 2 * id2 i j.
Lemma terms2 : mv_terms 2 id2 None None = Ok (P2, zrow).
Proof. reflexivity. Qed.

Lemma mv2_opt t : 1 / 2 <= t <= 1 -> forall target, target = Some t \/ (target = None /\ t = 1 / 2) ->
  qp_optimum (mv_qp 2 mean2 P2 zrow lo2 bud2 target) (pt2 (1 - t) t).
Proof.
  intros Ht target Htg.
  assert (M : forall w, dot 2 mean2 w = w 1%nat) by (intros; rewrite dot2; unfold mean2, of_list; simpl; lra).
  assert (O : forall w, qp_obj (mv_qp 2 mean2 P2 zrow lo2 bud2 target) w = w 0%nat * w 0%nat + w 1%nat * w 1%nat).
  { intros w. unfold qp_obj; simpl. rewrite dot_zrow, quad2. unfold P2, id2, delta. simpl. lra. }
  split.
  - apply mv_feasible_iff. rewrite constrained2. unfold pt2, of_list; simpl. split; [lra|].
    destruct Htg as [->|[-> _]]; simpl; auto. rewrite M. unfold pt2, of_list; simpl. lra.
  - intros y Hy. apply mv_feasible_iff in Hy as [Hc Hm]. apply constrained2 in Hc as (A & B & C).
    rewrite !O. unfold pt2, of_list; simpl.
    replace (y 0%nat) with (1 - y 1%nat) by lra.
    destruct Htg as [->|[_ ->]].
    + simpl in Hm. rewrite M in Hm. assert (0 <= (y 1%nat - t) * (y 1%nat + t - 1)) by (apply Rmult_le_pos; lra). lra.
    + pose proof (Rle_0_sqr (y 1%nat - 1/2)) as K. unfold Rsqr in K. lra.
Qed.

Lemma attained2 : attained (constrained 2 lo2 bud2) 2 mean2 (mv_cost 2 id2 None None).
Proof.
  intros t (y & Hy & Ht). assert (M : forall w, dot 2 mean2 w = w 1%nat) by (intros; rewrite dot2; unfold mean2, of_list; simpl; lra).
  assert (O : forall w, mv_cost 2 id2 None None w = w 0%nat * w 0%nat + w 1%nat * w 1%nat).
  { intros w. unfold mv_cost, impact. rewrite quad2. unfold id2, delta. simpl. lra. }
  set (m := match t with Some t => Rmax (1 / 2) t | None => 1 / 2 end).
  assert (Hm : 1 / 2 <= m <= 1 /\ forall z, constrained 2 lo2 bud2 z -> meets 2 mean2 t z -> m <= z 1%nat \/ m = 1 / 2).
  { apply constrained2 in Hy. unfold m. destruct t as [t|]; simpl in *; [|split; [lra|intros; right; reflexivity]]. rewrite M in Ht.
    unfold Rmax. destruct (Rle_dec (1 / 2) t).
    - split; [lra|]. intros z _ Hz. rewrite M in Hz. left. lra.
    - split; [lra|]. intros; right; reflexivity. }
  destruct Hm as [Hm1 Hm2]. exists (pt2 (1 - m) m). split.
  - split; [apply constrained2; unfold pt2, of_list; simpl; lra|]. unfold m in *. destruct t as [t|]; simpl; auto. rewrite M. unfold pt2, of_list; simpl. apply Rmax_r.
  - intros z [Hz Hzt]. rewrite !O. unfold pt2, of_list; simpl. pose proof (proj1 (constrained2 z) Hz) as (A & B & C). replace (z 0%nat) with (1 - z 1%nat) by lra.
    destruct (Hm2 z Hz Hzt) as [K|K].
    + assert (0 <= (z 1%nat - m) * (z 1%nat + m - 1)) by (apply Rmult_le_pos; lra). lra.
    + rewrite K. pose proof (Rle_0_sqr (z 1%nat - 1/2)) as K2. unfold Rsqr in K2. lra.
Qed.
Lemma is_max2 : is_max (constrained 2 lo2 bud2) (dot 2 mean2) 1.
Proof.
  assert (M : forall w, dot 2 mean2 w = w 1%nat) by (intros; rewrite dot2; unfold mean2, of_list; simpl; lra). split.
  - exists (pt2 0 1). split; [apply constrained2; unfold pt2, of_list; simpl; lra|]. rewrite M. reflexivity.
  - intros w Hw. apply constrained2 in Hw. rewrite M. lra.
Qed.

Definition frontier_solver := try_qp [pt2 (1 - 1 / 2) (1 / 2); pt2 (1 - 3 / 4) (3 / 4); pt2 (1 - 1) 1].
Definition frontier_lp := try_cp [pt2 0 1].

Lemma max2 : max_expected_return frontier_lp (max_return_lp 2 (hcat 2 (ropp mean2) zrow) (opt_rows lo2) (opt_rows bud2)) = Ok 1.
Proof.
  set (p := max_return_lp 2 (hcat 2 (ropp mean2) zrow) (opt_rows lo2) (opt_rows bud2)).
  assert (F : forall x, cp_feasible p x <-> constrained 2 lo2 bud2 x).
  { intros x. unfold cp_feasible, constrained, p; simpl. tauto. }
  assert (O : forall x, cp_obj p x = - x 1%nat).
  { intros x. unfold cp_obj, p; simpl. rewrite dot_hcat0, dot_ropp, dot2. unfold mean2, of_list; simpl. lra. }
  assert (Hopt : cp_optimum p (pt2 0 1)).
  { split.
    - apply F, constrained2. unfold pt2, of_list; simpl. lra.
    - intros y Hy. apply F, constrained2 in Hy. rewrite !O. unfold pt2, of_list; simpl. lra. }
  unfold max_expected_return, frontier_lp. rewrite try_cp_hit by exact Hopt. rewrite O. unfold pt2, of_list; simpl. f_equal. lra.
Qed.

Lemma mv_frontier_runs : mv_frontier frontier_solver frontier_lp 2 mean2 id2 lo2 bud2 None None 3 =
  Ok [pt2 (1 - 1 / 2) (1 / 2); pt2 (1 - 3 / 4) (3 / 4); pt2 (1 - 1) 1].
Proof.
  unfold mv_frontier. rewrite terms2. cbn [bind].
  assert (M : forall w, dot 2 mean2 w = w 1%nat) by (intros; rewrite dot2; unfold mean2, of_list; simpl; lra).
  assert (E0 : mv_solve_target frontier_solver 2 mean2 P2 zrow lo2 bud2 None = Ok (pt2 (1 - 1 / 2) (1 / 2))).
  { unfold mv_solve_target, frontier_solver. rewrite try_qp_hit; [reflexivity|]. apply mv2_opt; [lra|auto]. }
  assert (infeas : forall t a b, b < t -> ~ qp_feasible (mv_qp 2 mean2 P2 zrow lo2 bud2 (Some t)) (pt2 a b)).
  { intros t a b Hb Hf. apply mv_feasible_iff in Hf as [_ Hm]. simpl in Hm. rewrite M in Hm. unfold pt2, of_list in Hm; simpl in Hm. lra. }
  assert (E1 : mv_solve_target frontier_solver 2 mean2 P2 zrow lo2 bud2 (Some (3 / 4)) = Ok (pt2 (1 - 3 / 4) (3 / 4))).
  { unfold mv_solve_target, frontier_solver. rewrite try_qp_skip by (apply infeas; lra).
    rewrite try_qp_hit; [reflexivity|]. apply mv2_opt; [lra|auto]. }
  assert (E2 : mv_solve_target frontier_solver 2 mean2 P2 zrow lo2 bud2 (Some 1) = Ok (pt2 (1 - 1) 1)).
  { unfold mv_solve_target, frontier_solver. rewrite !try_qp_skip by (apply infeas; lra).
    rewrite try_qp_hit; [reflexivity|]. apply mv2_opt; [lra|auto]. }
  rewrite E0. cbn [bind]. rewrite max2. cbn [bind].
  unfold frontier. rewrite M. change (pt2 (1 - 1 / 2) (1 / 2) 1%nat) with (1 / 2). cbv zeta.
  assert (R1 : risclose (1 / 2) 1 = false).
  { unfold risclose. apply Rleb_false. rewrite Rabs_R1. replace (1 / 2 - 1) with (- (1 / 2)) by lra. rewrite Rabs_Ropp, Rabs_right; lra. }
  rewrite R1. simpl. unfold grid_point. simpl.
  replace (1 / 2 + 1 * ((1 - 1 / 2) / (3 - 1))) with (3 / 4) by lra.
  replace (1 / 2 + (1 + 1) * ((1 - 1 / 2) / (3 - 1))) with 1 by lra.
  rewrite E1. simpl. rewrite E2. reflexivity.
Qed.

(** * max_sharpe counterexamples, identity covariance *)
Lemma cs2 (a b x y : R) : 0 < a * a + b * b -> a * x + b * y = 1 -> / (a * a + b * b) <= x * x + y * y.
Proof.
  intros H E. apply Rmult_le_reg_r with (a * a + b * b); auto. rewrite Rinv_l by lra.
  assert (0 <= (a * y - b * x) * (a * y - b * x)) by apply Rle_0_sqr.
  replace ((x * x + y * y) * (a * a + b * b)) with ((a * x + b * y) * (a * x + b * y) + (a * y - b * x) * (a * y - b * x)) by ring.
  rewrite E. lra.
Qed.

Lemma sharpe2_opt m0 m1 G A : 0 < m0 * m0 + m1 * m1 ->
  hom_feasible 2 G A (pt2 (m0 / (m0 * m0 + m1 * m1)) (m1 / (m0 * m0 + m1 * m1))) ->
  qp_optimum (sharpe_qp 2 (pt2 m0 m1) id2 G A 0) (pt2 (m0 / (m0 * m0 + m1 * m1)) (m1 / (m0 * m0 + m1 * m1))).
Proof.
  intros Hp Hf. set (s := m0 * m0 + m1 * m1) in *.
  assert (E : forall w, excess 2 (pt2 m0 m1) 0 w = m0 * w 0%nat + m1 * w 1%nat).
  { intros w. unfold excess. rewrite dot2. unfold pt2, of_list; simpl. lra. }
  split.
  - apply sharpe_feasible. split; auto. rewrite E. unfold pt2, of_list; simpl. unfold s. field. fold s. lra.
  - intros y Hy. apply sharpe_feasible in Hy as [_ He]. rewrite E in He.
    unfold qp_obj; simpl. rewrite !dot_zrow, !quad2. unfold id2, delta, pt2, of_list; simpl.
    pose proof (cs2 m0 m1 (y 0%nat) (y 1%nat) Hp He) as K. fold s in K.
    assert (E2 : m0 / s * (m0 / s) + m1 / s * (m1 / s) = / s) by (unfold s; field; fold s; lra).
    lra.
Qed.

(** A minimum weight of one half on the first asset. *)
Definition floor_rows : option rows := Some [(ropp (eye_row 0), - (1 / 2))].
Lemma floor_violated : exists r, max_sharpe (try_qp [pt2 ((1/10) / (82/100)) ((9/10) / (82/100))]) 2 (pt2 (1/10) (9/10)) id2 floor_rows bud2 0 = Ok r /\
  r_weights r 0%nat = 1 / 10.
Proof.
  assert (Hs : 1/10 * (1/10) + 9/10 * (9/10) = 82/100) by lra.
  unfold max_sharpe. rewrite try_qp_hit.
  - unfold pt2, of_list; simpl.
    destruct (Rltb_spec (Rabs (0 + (1/10) / (82/100) + (9/10) / (82/100))) (1 / 1000000000000)) as [H|H].
    + exfalso. rewrite Rabs_right in H by lra. lra.
    + eexists. split; [reflexivity|]. simpl. lra.
  - rewrite <- Hs. apply sharpe2_opt; [lra|]. rewrite Hs. split.
    + intros g h [E|[]]. injection E as <- <-. rewrite dot2. unfold ropp, eye_row, delta, pt2, of_list; simpl. lra.
    + intros a b [E|[]] Hb. injection E as <- <-. rewrite Rabs_R1 in Hb. lra.
Qed.

(** Negative mean returns, fully invested, no inequalities. *)
Lemma neg_mean_worst : exists r, max_sharpe (try_qp [pt2 ((-1/10) / (2/100)) ((-1/10) / (2/100))]) 2 (pt2 (-1/10) (-1/10)) id2 None bud2 0 = Ok r /\
  r_weights r 0%nat = 1 / 2 /\ r_weights r 1%nat = 1 / 2.
Proof.
  assert (Hs : -1/10 * (-1/10) + -1/10 * (-1/10) = 2/100) by lra.
  unfold max_sharpe. rewrite try_qp_hit.
  - unfold pt2, of_list; simpl.
    destruct (Rltb_spec (Rabs (0 + (-1/10) / (2/100) + (-1/10) / (2/100))) (1 / 1000000000000)) as [H|H].
    + exfalso. replace (0 + (-1/10) / (2/100) + (-1/10) / (2/100)) with (- (10)) in H by lra. rewrite Rabs_Ropp, Rabs_right in H by lra. lra.
    + eexists. split; [reflexivity|]. simpl. lra.
  - rewrite <- Hs. apply sharpe2_opt; [lra|]. split.
    + intros g h [].
    + intros a b [E|[]] Hb. injection E as <- <-. rewrite Rabs_R1 in Hb. lra.
Qed.

Lemma sharpe_runs : exists r, max_sharpe (try_qp [pt2 ((1/2) / (1/2)) ((1/2) / (1/2))]) 2 (pt2 (1/2) (1/2)) id2 lo2 bud2 0 = Ok r /\
  0 < excess 2 (pt2 (1/2) (1/2)) 0 (r_weights r) /\ 0 < quad 2 id2 (r_weights r).
Proof.
  assert (Hs : 1/2 * (1/2) + 1/2 * (1/2) = 1/2) by lra.
  unfold max_sharpe. rewrite try_qp_hit.
  - unfold pt2, of_list; simpl.
    destruct (Rltb_spec (Rabs (0 + (1/2) / (1/2) + (1/2) / (1/2))) (1 / 1000000000000)) as [H|H].
    + exfalso. rewrite Rabs_right in H by lra. lra.
    + eexists. split; [reflexivity|]. cbn [r_weights].
      match goal with |- context [excess _ _ _ ?u] => set (w := u) end. assert (W : w 0%nat = 1 / 2 /\ w 1%nat = 1 / 2) by (unfold w; split; field).
      clearbody w. destruct W as [W0 W1]. unfold excess. split.
      * rewrite dot2. unfold pt2, of_list; simpl. rewrite W0, W1. lra.
      * rewrite quad2. unfold id2, delta. simpl. rewrite W0, W1. lra.
  - pose proof (sharpe2_opt (1/2) (1/2) lo2 bud2) as K. rewrite Hs in K. apply K; [lra|]. split.
    + intros g h [E|[E|[]]]; injection E as <- <-; rewrite dot2; unfold ropp, eye_row, delta, pt2, of_list; simpl; lra.
    + intros a b [E|[]] Hb. injection E as <- <-. rewrite Rabs_R1 in Hb. lra.
Qed.

(** * Robust counterexample: S = [[1, 0.6], [0.6, 1]] *)
Definition cor_S : mat := fun i j => nth j (nth i [[1; 6/10]; [6/10; 1]] []) 0.
Definition cor_L : mat := fun i j => nth j (nth i [[1; 0]; [6/10; 8/10]] []) 0.
Lemma cor_factor M : (forall i j, (i < 2)%nat -> (j < 2)%nat -> M i j = cor_S i j) -> is_cholesky 2 M cor_L.
Proof.
  intros H. apply (is_cholesky_ext 2 cor_S); [intros; symmetry; auto|]. repeat split.
  - intros [|[|i]] Hi; try lia; unfold cor_L; simpl; lra.
  - intros [|[|i]] [|[|j]] Hij; try lia; reflexivity.
  - intros [|[|i]] [|[|j]] Hi Hj; try lia; unfold mmul, transpose, cor_L, cor_S; simpl; lra.
Qed.
Lemma cor_sym i j : (i < 2)%nat -> (j < 2)%nat -> symmetrise cor_S i j = cor_S i j.
Proof. intros Hi Hj. destruct i as [|[|i]], j as [|[|j]]; try lia; unfold symmetrise, cor_S; simpl; lra. Qed.

Lemma cor_norm w : norm2 2 (mv 2 cor_L w) = sqrt (w 0%nat * w 0%nat + (6/10 * w 0%nat + 8/10 * w 1%nat) * (6/10 * w 0%nat + 8/10 * w 1%nat)).
Proof. unfold norm2. rewrite dot2. unfold mv. rewrite !dot2. unfold cor_L; simpl. f_equal. ring. Qed.

Definition cor_t : R := sqrt (8/13).
Lemma cor_runs : robust_lambda (try_cp [of_list [2/13; 11/13; cor_t]]) (try_chol 2 cor_L) 2 zrow cor_S None None None bud2 1 =
  Ok (mkRes (of_list [2/13; 11/13; cor_t]) (dot 2 zrow (of_list [2/13; 11/13; cor_t])) cor_t).
Proof.
  unfold robust_lambda, robust_init, cholesky_pd. cbn [cholesky_loop].
  assert (E : try_chol 2 cor_L 2 (if Reqb 0 0 then symmetrise cor_S else jittered (symmetrise cor_S) 0) = Some cor_L).
  { unfold try_chol. destruct (emdec _) as [|Hn]; auto. exfalso. apply Hn. destruct (Reqb_spec 0 0); [|lra].
    apply cor_factor. intros; apply cor_sym; auto. }
  rewrite E. cbn [bind]. destruct (Rltb_spec 1 0); [lra|]. unfold robust_socp.
  rewrite try_cp_hit; [reflexivity|]. split.
  - apply robust_feasible. split; [|split; auto].
    + split; [intros g h []|]. intros a b [E1|[]]. injection E1 as <- <-. rewrite dot2. unfold cst, of_list; simpl. lra.
    + rewrite cor_norm. unfold of_list; simpl. unfold cor_t. apply sqrt_le_1_alt. lra.
  - intros y Hy. apply robust_feasible in Hy as ([_ Hb] & Hn & _). rewrite !robust_obj, !dot_zrow.
    specialize (Hb (cst 1) 1 (or_introl eq_refl)). rewrite dot2 in Hb. unfold cst in Hb. rewrite cor_norm in Hn.
    unfold of_list at 1; simpl. enough (cor_t <= y 2%nat) by lra. eapply Rle_trans; [|exact Hn]. unfold cor_t. apply sqrt_le_1_alt.
    replace (y 1%nat) with (1 - y 0%nat) by lra. pose proof (Rle_0_sqr (y 0%nat - 2/13)) as K. unfold Rsqr in K. nra.
Qed.

(** * Diagonal robust instance *)
Lemma id_factor M : (forall i j, (i < 2)%nat -> (j < 2)%nat -> M i j = id2 i j) -> is_cholesky 2 M id2.
Proof.
  intros H. apply (is_cholesky_ext 2 id2); [intros; symmetry; auto|]. repeat split.
  - intros [|[|i]] Hi; try lia; unfold id2, delta; simpl; lra.
  - intros [|[|i]] [|[|j]] Hij; try lia; reflexivity.
  - intros [|[|i]] [|[|j]] Hi Hj; try lia; unfold mmul, transpose, id2, delta; simpl; lra.
Qed.
Lemma id_sym i j : symmetrise id2 i j = id2 i j.
Proof. unfold symmetrise, id2, delta. rewrite (Nat.eqb_sym j i). destruct (i =? j)%nat; lra. Qed.
Lemma id_chol M : (forall i j, (i < 2)%nat -> (j < 2)%nat -> M i j = id2 i j) -> cholesky_pd (try_chol 2 id2) 2 M = Ok id2.
Proof.
  intros H. unfold cholesky_pd. cbn [cholesky_loop].
  assert (E : try_chol 2 id2 2 (if Reqb 0 0 then symmetrise M else jittered (symmetrise M) 0) = Some id2).
  { unfold try_chol. destruct (emdec _) as [|Hn]; auto. exfalso. apply Hn. destruct (Reqb_spec 0 0); [|lra].
    apply id_factor. intros i j Hi Hj. unfold symmetrise. rewrite !H by auto. apply id_sym. }
  rewrite E. reflexivity.
Qed.

Lemma id_mv w i : (i < 2)%nat -> mv 2 id2 w i = w i.
Proof. intros Hi. unfold mv, id2. apply dot_delta_l. auto. Qed.

Lemma robust_runs : robust_lambda (try_cp [of_list [1/2; 1/2; sqrt (1/2)]]) (try_chol 2 id2) 2 zrow id2 None None None bud2 1 =
  Ok (mkRes (of_list [1/2; 1/2; sqrt (1/2)]) (dot 2 zrow (of_list [1/2; 1/2; sqrt (1/2)])) (sqrt (1/2))).
Proof.
  unfold robust_lambda, robust_init. rewrite id_chol by auto. cbn [bind]. destruct (Rltb_spec 1 0); [lra|]. unfold robust_socp.
  assert (Nn : forall w, norm2 2 (mv 2 id2 w) = sqrt (w 0%nat * w 0%nat + w 1%nat * w 1%nat)).
  { intros w. unfold norm2. rewrite dot2, !id_mv by lia. reflexivity. }
  rewrite try_cp_hit; [reflexivity|]. split.
  - apply robust_feasible. split; [|split; auto].
    + split; [intros g h []|]. intros a b [E1|[]]. injection E1 as <- <-. rewrite dot2. unfold cst, of_list; simpl. lra.
    + rewrite Nn. unfold of_list; simpl. apply sqrt_le_1_alt. lra.
  - intros y Hy. apply robust_feasible in Hy as ([_ Hb] & Hn & _). rewrite !robust_obj, !dot_zrow.
    specialize (Hb (cst 1) 1 (or_introl eq_refl)). rewrite dot2 in Hb. unfold cst in Hb. rewrite Nn in Hn.
    unfold of_list at 1; simpl. enough (sqrt (1/2) <= y 2%nat) by lra. eapply Rle_trans; [|exact Hn]. apply sqrt_le_1_alt.
    replace (y 1%nat) with (1 - y 0%nat) by lra. pose proof (Rle_0_sqr (y 0%nat - 1/2)) as K. unfold Rsqr in K. nra.
Qed.

(** * Risk parity instance: two uncorrelated assets of equal variance *)
Definition rrp_sol : vec := of_list [1/2; 1/2; 1/2; 1/2; 1/2; sqrt (1/2); 0; sqrt (1/2)].
Lemma rrp_runs : exists r, rrp_solve (try_cp [rrp_sol]) (fun _ => None) (try_chol 2 id2) 2 zrow id2 None None None 0 None None = Ok r /\
  rr_weights r 0%nat = 1/2 /\ rr_weights r 1%nat = 1/2.
Proof.
  unfold rrp_solve. rewrite id_chol by (intros; apply id_sym). cbn [bind risk_budgets].
  destruct (Rltb_spec 0 0); [lra|]. cbn [bind fst snd].
  set (C := symmetrise id2). set (bud := fun _ : nat => 1 / INR 2).
  assert (Hbud : forall i, (i < 2)%nat -> 0 <= bud i) by (intros; unfold bud; simpl INR; lra).
  assert (HC : forall w i, (i < 2)%nat -> mv 2 C w i = w i).
  { intros w i Hi. rewrite <- (id_mv w i Hi). apply dot_ext; auto. intros; apply id_sym. }
  assert (E : sqrt (1/2) * sqrt (1/2) = 1/2) by (apply sqrt_sqrt; lra).
  assert (Ep : 0 < sqrt (1/2)) by (apply sqrt_lt_R0; lra).
  assert (Hopt : cp_optimum (rrp_cp 2 zrow C id2 bud 0 None None None) rrp_sol).
  { assert (L0 : forall x psi g rho, rrp_point 2 zrow C id2 bud 0 None None None x psi g rho -> 1/2 - sqrt (1/2) <= psi - g).
    { intros x psi g rho [R1 R2 R3 R4 R5 R6 R7 R8 R9].
      pose proof (R1 0%nat ltac:(lia)) as X0. pose proof (R1 1%nat ltac:(lia)) as X1.
      assert (Sx : x 0%nat + x 1%nat = 1) by (assert (S0 : sumn 2 x = 1) by (apply R5; simpl; tauto); simpl in S0; lra).
      pose proof (R7 0%nat ltac:(lia)) as F0. pose proof (R7 1%nat ltac:(lia)) as F1.
      unfold risk_contribution in F0, F1. rewrite HC in F0, F1 by lia. unfold bud in F0, F1. simpl INR in F0, F1.
      rewrite dot2, !id_mv in R8 by lia. simpl INR in R8. destruct R3 as (S1 & S2 & S3).
      set (q := sqrt (1/2)) in *. clearbody q.
      assert (G0 : q * g <= x 0%nat) by (apply Rsqr_incr_0; unfold Rsqr; nra).
      assert (G1 : q * g <= x 1%nat) by (apply Rsqr_incr_0; unfold Rsqr; nra).
      assert (Gq : g <= q) by nra.
      assert (Pq : q * g <= psi).
      { apply Rsqr_incr_0; unfold Rsqr; [|nra|auto]. pose proof (pow2_ge_0 rho). nra. }
      assert (q < 1) by nra. nra. }
    assert (Hsolpt : cp_feasible (rrp_cp 2 zrow C id2 bud 0 None None None) rrp_sol).
    { assert (Q : forall i, tl4 2 rrp_sol i = nth i [1/2; sqrt (1/2); 0; sqrt (1/2)] 0) by (intros [|[|[|[|i]]]]; reflexivity).
      assert (Z : forall i, (i < 2)%nat -> shift 2 rrp_sol i = 1/2) by (intros [|[|i]] Hi; try lia; reflexivity).
      assert (X : forall i, (i < 2)%nat -> rrp_sol i = 1/2) by (intros [|[|i]] Hi; try lia; reflexivity).
      unfold cp_feasible, rrp_cp. cbn [cp_n cp_lin cp_eq cp_soc]. split; [|split].
      - intros g h Hi. apply (proj1 (in_rrp_lin 2 zrow C id2 bud 0 None None None g h)) in Hi. destruct Hi as [(i & Hi & E1)|[(i & Hi & E1)|[E1|[E1|[E1|[(g' & h' & Hi & E1)|(t & Et & E1)]]]]]]; [| | | | |destruct Hi|discriminate];
          injection E1 as <- <-.
        + rewrite dot_xrow, dot_ropp, dot_eye, X by auto. lra.
        + rewrite dot_zetarow, dot_ropp, dot_eye, Z by auto. lra.
        + rewrite dot_tailrow, !Q. simpl. lra.
        + rewrite dot_tailrow, !Q. simpl. lra.
        + rewrite dot_tailrow, !Q. simpl. lra.
      - intros a b Hi. unfold rrp_eq in Hi. apply in_app_or in Hi as [Hi|Hi].
        + apply in_map_seq in Hi as (i & Hi & E1). injection E1 as <- <-.
          rewrite dot_rplus, dot_xrow, dot_zetarow, dot_ropp, dot_eye, Z by auto.
          change (dot 2 (C i) rrp_sol) with (mv 2 C rrp_sol i). rewrite HC, X by auto. lra.
        + simpl in Hi. destruct Hi as [Hi|[]]. injection Hi as <- <-. rewrite dot_xrow, dot2, !X by lia. unfold cst. lra.
      - intros blk Hi. destruct Hi as [<-|[<-|Hi]].
        + rewrite (soc_map (2 + (2 + 4)) _ (fun i => xrow 2 (ropp (id2 i))) 2), dot_tailrow, !Q. simpl nth.
          rewrite (sumn_ext 2 _ (fun i => 1/4)).
          * simpl sumn. apply Rle_trans with (sqrt (1/2)); [|lra]. apply sqrt_le_1_alt. lra.
          * intros i Hi. rewrite dot_xrow, dot_ropp. change (dot 2 (id2 i) rrp_sol) with (mv 2 id2 rrp_sol i). rewrite id_mv, X by auto. lra.
        + rewrite soc3, !dot_tailrow, !Q. simpl nth. simpl INR.
          assert (E2 : sqrt (1 + 1) * sqrt (1/2) = 1) by (rewrite <- sqrt_mult by lra; replace ((1 + 1) * (1/2)) with 1 by lra; apply sqrt_1).
          assert (E3 : 0 < sqrt (1 + 1)) by (apply sqrt_lt_R0; lra).
          assert (E4 : sqrt (1 + 1) = 2 * sqrt (1/2)) by nra.
          apply sqrt_le_iff; [|split]; nra.
        + rewrite (proj2 (Rltb_false 0 0)) in Hi by lra. cbn [app] in Hi.
          apply (proj1 (in_map_seq _ 2 blk)) in Hi. destruct Hi as (i & Hi & <-). apply arc_cone; auto. rewrite X, Z, Q by auto. simpl nth. unfold bud. simpl INR. nra. }
    split; auto. intros y Hy. destruct (rrp_sound 2 zrow C id2 bud 0 None None None Hbud y Hy) as [Hp _].
    apply L0 in Hp. rewrite !rrp_obj. unfold tl4 at 1 2, shift, rrp_sol, of_list; simpl. exact Hp. }
  rewrite try_cp_hit by exact Hopt. eexists. split; [reflexivity|]. split; reflexivity.
Qed.

(** * Mean-CVaR instance: a risky and a riskless asset, two scenarios *)
Definition cv_R : nat -> vec := fun t => if (t =? 0)%nat then pt2 (-1) 0 else pt2 1 0.
Definition cv_sol : vec := of_list [0; 1; 0; 0; 0].
Lemma cvar_runs : cvar_portfolio (try_cp [cv_sol]) 2 2 cv_R (cst (1/2)) (1/2) None None lo2 bud2 None = Ok cv_sol.
Proof.
  unfold cvar_portfolio. cbn [turnover cvar_init]. unfold cvar_solve_target. rewrite try_cp_hit; [reflexivity|]. split.
  - apply cvar_feasible_iff. split; [|exact I]. split; [|split; [|split]].
    + intros [|[|t]] Ht; try lia; rewrite dot2; unfold cv_R, pt2, of_list, pt_c, pt_xi, shift, cv_sol, of_list; simpl; lra.
    + intros [|[|t]] Ht; try lia; unfold pt_xi, shift, cv_sol, of_list; simpl; lra.
    + exact I.
    + apply constrained2. unfold cv_sol, of_list; simpl. lra.
  - intros y Hy. apply cvar_feasible_iff in Hy as [(H1 & H2 & _ & Hc) _]. apply constrained2 in Hc as (A & B & D).
    unfold cvar_lp. rewrite !cvar_obj_l.
    specialize (H1 0%nat ltac:(lia)). rewrite dot2 in H1. unfold cv_R, pt2, of_list in H1; simpl in H1.
    pose proof (H2 0%nat ltac:(lia)). pose proof (H2 1%nat ltac:(lia)).
    unfold dot at 2; simpl sumn. unfold dot, pt_c at 1, pt_xi at 1 2, shift, cv_sol, of_list, cst; simpl. change (y 3%nat) with (pt_xi 2 y 0%nat). lra.
Qed.

Lemma cv_prob : prob_vec 2 (cst (1/2)).
Proof. split; [intros; unfold cst; lra|simpl; unfold cst; lra]. Qed.
