(** Mean-CVaR and frontiers with inexact solvers. *)
From Coq Require Import List ZArith Lia Lra Psatz.
Import ListNotations.
From Verif Require Import Err RBase QpBase RiskSpec OptModel OptSpec OptProofs OptProofs2 OptProofs3 AxSpec AxProofs.
Open Scope R_scope.
Open Scope list_scope.

(** ** The CVaR programme *)
Definition near_pt d N T Rm (tc : option (list R * list R)) G A x : Prop :=
  (forall t, (t < T)%nat -> - dot N (Rm t) x - pt_c N x <= pt_xi N x t + d) /\
  (forall t, (t < T)%nat -> - d <= pt_xi N x t) /\
  match tc with
  | Some (w0, _) => (forall i, (i < N + N)%nat -> - d <= pt_u N T x i) /\
      forall i, (i < N)%nat -> Rabs (x i - pt_u N T x i + pt_u N T x (N + i)%nat - nth i w0 0) <= d
  | None => True
  end /\ near_constrained d N G A x.

Lemma near_lin d N T Rm tc G A c x : near_cp d (mkCP (cvar_nvars N T tc) c (cvar_lin N T Rm tc G) (cvar_eq N T tc A) []) x -> near_pt d N T Rm tc G A x.
Proof.
  intros (H1 & H2 & _). cbn [cp_lin cp_eq cp_n] in *. rewrite nvars_eq in H1, H2. unfold cvar_lin, cvar_eq in *. unfold near_pt. split; [|split; [|split]].
  - intros t Ht. specialize (H1 (hcat N (ropp (Rm t)) (hcat 1 (cst (-1)) (hcat T (ropp (eye_row t)) zrow))) 0).
    rewrite row_ru in H1 by auto. enough (- dot N (Rm t) x - pt_c N x - pt_xi N x t <= 0 + d) by lra.
    apply H1. apply in_or_app. left. apply in_map_seq. eauto.
  - intros t Ht. specialize (H1 (hcat N zrow (hcat 1 zrow (hcat T (ropp (eye_row t)) zrow))) 0).
    rewrite row_xi in H1 by auto. enough (- pt_xi N x t <= 0 + d) by lra.
    apply H1. apply in_or_app. right. apply in_or_app. left. apply in_map_seq. eauto.
  - destruct tc as [[w0 c']|]; [|exact I]. cbn [tcw] in *. split.
    + intros i Hi. specialize (H1 (hcat N zrow (hcat 1 zrow (hcat T zrow (ropp (eye_row i))))) 0).
      rewrite row_u in H1 by auto. enough (- pt_u N T x i <= 0 + d) by lra.
      apply H1. apply in_or_app. right. apply in_or_app. right. apply in_or_app. left. apply in_map_seq. eauto.
    + intros i Hi. rewrite <- (row_trade N T i x Hi). apply (H2 _ (nth i w0 0)). apply in_or_app. right. apply in_map_seq.
      exists i. split; auto.
  - split.
    + intros g h Hi. specialize (H1 (hcat N g zrow) h). rewrite dot_hcat_pad in H1. apply H1.
      do 3 (apply in_or_app; right). apply in_map_iff. exists (g, h). auto.
    + intros a b Hi. specialize (H2 (hcat N a zrow) b). rewrite dot_hcat_pad in H2. apply H2.
      apply in_or_app. left. apply in_map_iff. exists (a, b). auto.
Qed.

Lemma near_cvar d N T Rm p alpha tc G A target x : near_cp d (cvar_lp N T Rm p alpha tc G A target) x ->
  near_pt d N T Rm tc G A x /\ near_meets d N (cvar_mean T p Rm) target x.
Proof.
  intros (H1 & H2 & H3). destruct target as [t|]; cbn [near_meets]; unfold cvar_lp in *; cbn [cp_lin cp_eq cp_n cp_soc with_target] in *.
  - split.
    + apply (near_lin d N T Rm tc G A (cvar_c N T p alpha tc)). split; [|split; [exact H2|exact H3]]. cbn [cp_lin cp_n]. intros g h Hi. apply H1, in_or_app. left. exact Hi.
    + specialize (H1 (hcat N (ropp (cvar_mean T p Rm)) zrow) (- t)). rewrite nvars_eq, dot_hcat_pad, dot_ropp in H1.
      assert (- dot N (cvar_mean T p Rm) x <= - t + d) by (apply H1, in_or_app; simpl; auto). lra.
  - split; [|exact I]. apply (near_lin d N T Rm tc G A (cvar_c N T p alpha tc)). split; [exact H1|split; [exact H2|exact H3]].
Qed.

Lemma cvar_near_lower d N T Rm p alpha w0 costs G A lin eq x v : prob_vec T p -> 0 < alpha -> 0 <= d ->
  (forall c, costs = Some c -> forall i, (i < N)%nat -> 0 <= nth i c 0) ->
  near_pt d N T Rm (turnover w0 costs) G A x ->
  is_cvar (to_list T p) (to_list T (fun t => dot N (Rm t) x)) alpha v ->
  v + turnover_cost N w0 costs x <=
  cp_obj (mkCP (cvar_nvars N T (turnover w0 costs)) (cvar_c N T p alpha (turnover w0 costs)) lin eq []) x + d / alpha + 3 * d * cost_rate costs w0 N.
Proof.
  intros [Hp Hp1] Ha D Hc (H1 & H2 & H3 & _) [Hv _]. rewrite cvar_obj_l.
  specialize (Hv (pt_c N x)). unfold ru in Hv. rewrite expect_to_list in Hv.
  assert (E1 : sumn T (fun t => p t * Rmax 0 (- dot N (Rm t) x - pt_c N x)) / alpha <= dot T (fun t => p t / alpha) (pt_xi N x) + d / alpha).
  { apply Rle_trans with (sumn T (fun t => p t * (pt_xi N x t + d)) / alpha).
    - apply Rmult_le_compat_r; [apply Rlt_le, Rinv_0_lt_compat; auto|]. apply sumn_le. intros t Ht.
      apply Rmult_le_compat_l; [apply Hp; auto|]. apply Rmax_lub; [specialize (H2 t Ht); lra|apply H1; auto].
    - right. unfold dot. rewrite (sumn_ext T (fun t => p t * (pt_xi N x t + d)) (fun t => p t * pt_xi N x t + p t * d)) by (intros; ring).
      rewrite sumn_plus, sumn_scale_r, Hp1. rewrite (sumn_ext T (fun t => p t / alpha * pt_xi N x t) (fun t => p t * pt_xi N x t * / alpha)) by (intros; unfold Rdiv; ring).
      rewrite sumn_scale_r. field. lra. }
  enough (turnover_cost N w0 costs x <= match turnover w0 costs with
     | Some (_, c) => sumn N (fun i => nth i c 0 * (pt_u N T x i + pt_u N T x (N + i)%nat)) | None => 0 end + 3 * d * cost_rate costs w0 N) by lra.
  unfold turnover_cost, turnover, cost_rate in *. destruct w0 as [w0|]; [|lra]. destruct costs as [c|]; [|lra].
  destruct H3 as [H3 H4]. rewrite <- sumn_scale, <- sumn_plus. apply sumn_le. intros i Hi. pose proof (Hc c eq_refl i Hi) as C0.
  specialize (H4 i Hi). pose proof (H3 i ltac:(lia)). pose proof (H3 (N + i)%nat ltac:(lia)).
  replace (nth i c 0 * (pt_u N T x i + pt_u N T x (N + i)%nat) + 3 * d * nth i c 0) with (nth i c 0 * (pt_u N T x i + pt_u N T x (N + i)%nat + 3 * d)) by ring.
  apply Rmult_le_compat_l; [exact C0|]. apply Rabs_le. revert H4. unfold Rabs. destruct (Rcase_abs _); intros; lra.
Qed.

Lemma cvar_near lp N T Rm p alpha w0 costs G A target d e w cost : approx_cp d e lp -> prob_vec T p -> 0 < alpha -> 0 <= d ->
  (forall c, costs = Some c -> forall i, (i < N)%nat -> 0 <= nth i c 0) ->
  cvar_cost N T Rm p alpha w0 costs cost ->
  cvar_solve_target lp N T Rm p alpha (turnover w0 costs) G A target = Ok w ->
  near_constrained d N G A w /\ near_meets d N (cvar_mean T p Rm) target w /\
  within (e + d / alpha + 3 * d * cost_rate costs w0 N) (fun w => constrained N G A w /\ meets N (cvar_mean T p Rm) target w) cost w.
Proof.
  intros Hs Hp Ha D Hc Hcost H. unfold cvar_solve_target in H.
  destruct (lp _) as [x|] eqn:E; [|discriminate]. injection H as <-.
  apply Hs in E as [Hf Ho]. apply near_cvar in Hf as [Hpt Ht].
  split; [apply Hpt|]. split; [exact Ht|]. intros w' [Hw' Ht'].
  pose proof (cvar_near_lower d N T Rm p alpha w0 costs G A
    (with_target N (cvar_mean T p Rm) (cvar_lin N T Rm (turnover w0 costs) G) target)
    (cvar_eq N T (turnover w0 costs) A) x _ Hp Ha D Hc Hpt (Hcost x)) as L.
  destruct (cvar_lp_attained N T Rm p alpha w0 costs G A w' _
    (with_target N (cvar_mean T p Rm) (cvar_lin N T Rm (turnover w0 costs) G) target)
    (cvar_eq N T (turnover w0 costs) A) Ha Hw' (Hcost w')) as (y & Hy & Hypt & Hyo).
  specialize (Ho y). change (mkCP _ _ _ _ _) with (cvar_lp N T Rm p alpha (turnover w0 costs) G A target) in L, Hyo.
  assert (Hyf : cp_feasible (cvar_lp N T Rm p alpha (turnover w0 costs) G A target) y).
  { apply cvar_feasible_iff. split; auto. destruct target as [t|]; simpl in *; auto.
    rewrite (dot_ext_r N _ y w'); auto. }
  specialize (Ho Hyf). lra.
Qed.

(** ** Maximal return *)
Lemma near_max_lp d e lp N m n mean Gl Al G A mr : approx_cp d e lp -> (N = n + m)%nat ->
  (forall x, near_cp d (max_return_lp N (hcat n (ropp mean) zrow) Gl Al) x -> near_constrained d n G A x) ->
  (forall w, constrained n G A w -> exists x, (forall i, (i < n)%nat -> x i = w i) /\ cp_feasible (max_return_lp N (hcat n (ropp mean) zrow) Gl Al) x) ->
  max_expected_return lp (max_return_lp N (hcat n (ropp mean) zrow) Gl Al) = Ok mr -> near_max d e n G A mean mr.
Proof.
  intros Hs -> H1 H2 H. unfold max_expected_return in H.
  destruct (lp (max_return_lp (n + m) (hcat n (ropp mean) zrow) Gl Al)) as [x|] eqn:E; [|discriminate].
  injection H as <-. apply Hs in E as [Hf Ho].
  assert (Eo : forall y, cp_obj (max_return_lp (n + m) (hcat n (ropp mean) zrow) Gl Al) y = - dot n mean y).
  { intros y. unfold cp_obj; simpl. rewrite dot_hcat_pad, dot_ropp. reflexivity. }
  rewrite Eo. split.
  - exists x. split; [apply H1, Hf|lra].
  - intros w Hw. destruct (H2 w Hw) as (y & Hy & Hyf). specialize (Ho y Hyf). rewrite !Eo in Ho.
    rewrite (dot_ext n mean w mean y) by (intros; auto; symmetry; auto). lra.
Qed.

Lemma mv_near_max d e lp n mean G A mr : approx_cp d e lp ->
  max_expected_return lp (max_return_lp n (hcat n (ropp mean) zrow) (opt_rows G) (opt_rows A)) = Ok mr -> near_max d e n G A mean mr.
Proof.
  intros Hs. apply (near_max_lp d e lp n 0); auto.
  - intros x (H1 & H2 & _). split; auto.
  - intros w [H1 H2]. exists w. repeat split; auto. simpl. tauto.
Qed.

Lemma cvar_near_max d e lp N T Rm p alpha w0 costs G A mr : approx_cp d e lp -> prob_vec T p -> 0 < alpha <= 1 ->
  max_expected_return lp
         (max_return_lp (cvar_nvars N T (turnover w0 costs)) (hcat N (ropp (cvar_mean T p Rm)) zrow)
            (cvar_lin N T Rm (turnover w0 costs) G) (cvar_eq N T (turnover w0 costs) A)) = Ok mr ->
  near_max d e N G A (cvar_mean T p Rm) mr.
Proof.
  intros Hs Hp Ha. set (tc := turnover w0 costs).
  apply (near_max_lp d e lp _ (1 + (T + tcw tc N))); [auto|apply nvars_eq| |].
  - intros x Hx. apply near_lin in Hx. apply Hx.
  - intros w Hw. destruct (cvar_exists T p (fun t => dot N (Rm t) w) alpha Hp Ha) as [v Hv].
    destruct (cvar_lp_attained N T Rm p alpha w0 costs G A w v [] [] (proj1 Ha) Hw Hv) as (x & Hx & Hpt & _).
    exists x. split; auto. apply (cvar_pt_iff N T Rm p alpha) in Hpt. exact Hpt.
Qed.

(** ** Frontiers *)
Lemma near_frontier_l n first fn num mean mr cols d e G A cost : 0 <= d ->
  near_constrained d n G A first -> within e (constrained n G A) cost first ->
  (forall t w, fn t = Ok w -> near_constrained d n G A w /\ t - d <= dot n mean w /\ within e (fun w => constrained n G A w /\ t <= dot n mean w) cost w) ->
  frontier n first fn num mean mr = Ok cols ->
  (frontier_collapses num (dot n mean first) mr /\ cols = [first]) \/
  (~ frontier_collapses num (dot n mean first) mr /\ nth 0 cols zrow = first /\
   near_frontier d e n G A mean cost mr (Z.to_nat num) cols).
Proof.
  intros D Hf Hw Hfn H. unfold frontier in H. unfold frontier_collapses.
  destruct (Z.ltb_spec num 2) as [Hlt|Hge]; simpl in H.
  { injection H as <-. left. split; auto. }
  unfold risclose in H. destruct (Rleb_spec (Rabs (dot n mean first - mr)) (1 / 100000000 + 1 / 100000 * Rabs mr)) as [Hc|Hc]; simpl in H.
  { injection H as <-. left. split; auto. }
  right. split; [intros [?|?]; [lia|auto]|].
  apply bind_ok in H as (out & Hout & H). injection H as <-.
  set (num' := Z.to_nat num) in *.
  set (lo := dot n mean first) in *.
  assert (Hn : (2 <= num')%nat) by (unfold num'; lia).
  assert (HZ : IZR num = INR num') by (rewrite INR_IZR_INZ; unfold num'; rewrite Z2Nat.id by lia; reflexivity).
  assert (Hlen : length out = (num' - 1)%nat) by (rewrite (mapM_length _ _ _ Hout), map_length, seq_length; reflexivity).
  assert (Hall : forall k, (k < num')%nat -> near_constrained d n G A (nth k (first :: out) zrow) /\ target_k lo mr num' k - d <= dot n mean (nth k (first :: out) zrow) /\
    within e (fun w => constrained n G A w /\ target_k lo mr num' k <= dot n mean w) cost (nth k (first :: out) zrow)).
  { intros [|k] Hk.
    - cbn [nth]. split; [exact Hf|]. split; [unfold target_k, lo; cbn [INR]; lra|]. intros w' [W _]. apply Hw, W.
    - cbn [nth]. apply (Hfn (target_k lo mr num' (S k))).
      pose proof (nth_mapM _ _ _ 0 zrow k Hout) as E. rewrite map_length, seq_length in E.
      rewrite nth_map_seq in E by lia. unfold target_k. unfold grid_point in E. rewrite HZ in E.
      simpl plus in E. apply E. lia. }
  split; [reflexivity|]. constructor.
  - simpl. lia.
  - intros k Hk. apply Hall, Hk.
  - intros k Hk. apply Hall, Hk.
  - intros k Hk. apply Hall, Hk.
Qed.

Lemma near_frontier_mono e n G A mean cost mr num cols : near_frontier 0 e n G A mean cost mr num cols -> dot n mean (nth 0 cols zrow) <= mr ->
  forall j k, (j <= k < num)%nat -> cost (nth j cols zrow) <= cost (nth k cols zrow) + e.
Proof.
  intros [L F T C] LO j k H. apply (C j ltac:(lia)). destruct (F k ltac:(lia)) as [F1 F2]. pose proof (T k ltac:(lia)) as TK. split.
  - split; [intros g h Hi; specialize (F1 g h Hi); lra|]. intros a b Hi. specialize (F2 a b Hi). revert F2. unfold Rabs. destruct (Rcase_abs _); intros; lra.
  - eapply Rle_trans; [|rewrite Rminus_0_r in TK; exact TK]. unfold target_k. apply Rplus_le_compat_l. apply Rmult_le_compat_r; [|apply le_INR; lia].
    destruct (le_lt_dec num 1) as [Q|Q].
    + assert (num = 1%nat) as -> by lia. cbn [INR]. replace (1 - 1) with 0 by lra. unfold Rdiv. rewrite Rinv_0. lra.
    + unfold Rdiv. apply Rmult_le_pos; [lra|]. apply Rlt_le, Rinv_0_lt_compat. pose proof (lt_INR 1 num Q) as I1. cbn [INR] in I1. lra.
Qed.

Lemma mv_frontier_near solve lp n mean cov G A w0 lam num cols d e d' e' : approx_qp d e solve -> approx_cp d' e' lp -> 0 <= d ->
  (forall l, lam = Some l -> w0 <> None -> length l = n) ->
  complete_qp solve -> attained (constrained n G A) n mean (mv_cost n cov w0 lam) ->
  mv_frontier solve lp n mean cov G A w0 lam num = Ok cols ->
  exists mr, near_max d' e' n G A mean mr /\ near_constrained d n G A (nth 0 cols zrow) /\ within e (constrained n G A) (mv_cost n cov w0 lam) (nth 0 cols zrow) /\
    ((frontier_collapses num (dot n mean (nth 0 cols zrow)) mr /\ length cols = 1%nat) \/
     near_frontier d e n G A mean (mv_cost n cov w0 lam) mr (Z.to_nat num) cols).
Proof.
  intros Hq Hc D Hl Hcq Hat H. unfold mv_frontier in H.
  apply bind_ok in H as ([P q] & Ht & H). apply bind_ok in H as (first & Hf & H).
  apply bind_ok in H as (mr & Hm & H).
  destruct (mv_objective n cov w0 lam P q Hl Ht) as [k Hk].
  assert (Hspec : forall t w, mv_solve_target solve n mean P q G A t = Ok w ->
    near_constrained d n G A w /\ near_meets d n mean t w /\ within e (fun w => constrained n G A w /\ meets n mean t w) (mv_cost n cov w0 lam) w).
  { intros t w E. destruct (mv_near_spec solve n mean P q G A t d e w Hq E) as (r & _ & Hr & F1 & F2 & Ho).
    split; [exact F1|]. split; [exact F2|]. intros w' Hw'.
    assert (Hsome : solve (mv_qp n mean P q G A t) <> None).
    { destruct (Hat t (ex_intro _ w' Hw')) as [y Hy]. exact (Hcq _ y (qp_of_minimiser n mean cov w0 lam P q G A t y Hl Ht Hy)). }
    rewrite (Hr Hsome) in Ho. specialize (Ho w' Hw'). cbv beta in Ho. rewrite !Hk in Ho. lra. }
  apply (mv_near_max d' e' lp n mean G A mr Hc) in Hm. exists mr. split; [exact Hm|].
  destruct (Hspec None first Hf) as (F1 & _ & F2).
  assert (W : within e (constrained n G A) (mv_cost n cov w0 lam) first) by (intros w' Hw'; apply F2; split; [exact Hw'|exact I]).
  destruct (near_frontier_l n first _ num mean mr cols d e G A _ D F1 W (fun t w => Hspec (Some t) w) H)
    as [[Hcl ->]|(Hcl & E0 & He)].
  - cbn [nth]. split; [exact F1|]. split; [exact W|]. left. split; [exact Hcl|reflexivity].
  - rewrite E0. split; [exact F1|]. split; [exact W|]. right. exact He.
Qed.

Lemma cvar_frontier_near lp N T Rm p alpha w0 costs G A num cols cost d e : approx_cp d e lp -> prob_vec T p -> 0 < alpha <= 1 -> 0 <= d ->
  (forall c, costs = Some c -> forall i, (i < N)%nat -> 0 <= nth i c 0) ->
  cvar_cost N T Rm p alpha w0 costs cost ->
  cvar_frontier lp N T Rm p alpha w0 costs G A num = Ok cols ->
  let e' := e + d / alpha + 3 * d * cost_rate costs w0 N in
  exists mr, near_max d e N G A (cvar_mean T p Rm) mr /\ near_constrained d N G A (nth 0 cols zrow) /\ within e' (constrained N G A) cost (nth 0 cols zrow) /\
    ((frontier_collapses num (dot N (cvar_mean T p Rm) (nth 0 cols zrow)) mr /\ length cols = 1%nat) \/
     near_frontier d e' N G A (cvar_mean T p Rm) cost mr (Z.to_nat num) cols).
Proof.
  intros Hs Hp Ha D Hc Hcost H e'. unfold cvar_frontier in H. apply cvar_init_inv in H as [H _].
  apply bind_ok in H as (first & Hf & H). apply bind_ok in H as (mr & Hm & H).
  apply (cvar_near_max d e lp N T Rm p alpha) in Hm; auto. exists mr. split; auto.
  assert (Hspec : forall t w, cvar_solve_target lp N T Rm p alpha (turnover w0 costs) G A t = Ok w ->
    near_constrained d N G A w /\ near_meets d N (cvar_mean T p Rm) t w /\ within e' (fun w => constrained N G A w /\ meets N (cvar_mean T p Rm) t w) cost w).
  { intros t w E. eapply cvar_near; eauto. lra. }
  destruct (Hspec None first Hf) as (F1 & _ & F2).
  assert (W : within e' (constrained N G A) cost first) by (intros w' Hw'; apply F2; split; [exact Hw'|exact I]).
  destruct (near_frontier_l N first _ num _ mr cols d e' G A _ D F1 W (fun t w => Hspec (Some t) w) H)
    as [[Hcl ->]|(Hcl & E0 & He)].
  - cbn [nth]. split; [exact F1|]. split; [exact W|]. left. split; [exact Hcl|reflexivity].
  - rewrite E0. split; [exact F1|]. split; [exact W|]. right. exact He.
Qed.
