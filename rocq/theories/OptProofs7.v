(** Feasible bounded problems are solved: existence of the optima. *)
From Coq Require Import Lia Lra Classical.
From Verif Require Import RBase QpBase RiskModel RiskSpec ExistLib OptModel OptSpec OptProofs OptProofs2 OptProofs3 OptProofs4 OptProofs5 ExistSpec.
Open Scope R_scope.
Open Scope list_scope.

Lemma bounded_box n F : bounded n F -> exists B, 0 <= B /\ forall x, F x -> box n B x.
Proof. intros [B H]. exists (Rmax B 0). split; [apply Rmax_r|]. intros x Hx i Hi. eapply Rle_trans; [apply (H x Hx i Hi)|apply Rmax_l]. Qed.
Lemma closed_constrained n G A : closed n (constrained n G A).
Proof. unfold constrained. apply closed_and; [apply closed_lin|apply closed_eq]. Qed.
Lemma closed_meets n mean t : closed n (meets n mean t).
Proof.
  intros u x H Hc. destruct t as [t|]; simpl in *; [|exact I]. apply (cv_ge (fun k => dot n mean (u k))); [apply cv_dot; exact Hc|exact H].
Qed.

Lemma attained_general n mean F cost : bounded n F -> closed n F -> continuous n cost -> attained F n mean cost.
Proof.
  intros Hb Hc Hf t (y & Hy & Ht). apply bounded_box in Hb as (B & _ & HB).
  destruct (attains n B (fun w => F w /\ meets n mean t w) cost) as (x & Hx & Hm); [apply closed_and; [exact Hc|apply closed_meets]|exact Hf|exists y; auto| |].
  - intros z [Hz Hzt]. exists z. split; [auto|]. split; [lra|]. apply HB. exact Hz.
  - exists x. split; assumption.
Qed.

Lemma continuous_plus n f g : continuous n f -> continuous n g -> continuous n (fun x => f x + g x).
Proof. intros H1 H2 u x Hc. apply (CV_plus (fun k => f (u k)) (fun k => g (u k))); auto. Qed.
Lemma continuous_mv_cost n cov w0 lam : continuous n (mv_cost n cov w0 lam).
Proof.
  unfold mv_cost. apply continuous_plus; [intros u x Hc; apply cv_quad; exact Hc|]. intros u x Hc. unfold impact.
  destruct w0 as [w0|]; [|apply cv_const]. destruct lam as [l|]; [|apply cv_const].
  apply (cv_sumn n (fun k i => nth i l 0 * (u k i - nth i w0 0) ^ 2)). intros i Hi. apply cv_scale.
  assert (D : Un_cv (fun k => u k i - nth i w0 0) (x i - nth i w0 0)) by (apply (CV_minus (fun k => u k i) (fun _ => nth i w0 0)); [apply Hc; exact Hi|apply cv_const]).
  apply (cv_ext (fun k => (u k i - nth i w0 0) * (u k i - nth i w0 0))); [intros; simpl; ring|].
  replace ((x i - nth i w0 0) ^ 2) with ((x i - nth i w0 0) * (x i - nth i w0 0)) by ring.
  apply (CV_mult _ _ _ _ D D).
Qed.

Lemma mv_attained n mean cov G A w0 lam : bounded n (constrained n G A) -> attained (constrained n G A) n mean (mv_cost n cov w0 lam).
Proof. intros Hb. apply attained_general; [exact Hb|apply closed_constrained|apply continuous_mv_cost]. Qed.

Lemma max_exists n F mean : bounded n F -> closed n F -> (exists x, F x) -> exists m, is_max F (dot n mean) m.
Proof.
  intros Hb Hc He. apply bounded_box in Hb as (B & _ & HB).
  destruct (attains n B F (fun x => - dot n mean x)) as (x & Hx & Hm); [exact Hc| |exact He| |].
  - intros u x Hu. apply (CV_opp (fun k => dot n mean (u k))), cv_dot. exact Hu.
  - intros z Hz. exists z. split; [exact Hz|]. split; [lra|]. apply HB. exact Hz.
  - exists (dot n mean x). split; [exists x; auto|]. intros y Hy. specialize (Hm y Hy). lra.
Qed.

(** ** CVaR *)
Lemma Rmax_lip a b : Rmax 0 a <= Rmax 0 b + Rabs (a - b).
Proof. unfold Rmax, Rabs. destruct (Rle_dec 0 a), (Rle_dec 0 b), (Rcase_abs (a - b)); lra. Qed.
Lemma ru_lip T p y z alpha c : (forall t, (t < T)%nat -> 0 <= p t) -> 0 < alpha ->
  ru (to_list T p) (to_list T y) alpha c <= ru (to_list T p) (to_list T z) alpha c + sumn T (fun t => p t * Rabs (y t - z t)) / alpha.
Proof.
  intros Hp Ha. unfold ru. rewrite !expect_to_list. rewrite Rplus_assoc. apply Rplus_le_compat_l. rewrite <- Rdiv_plus_distr, <- sumn_plus.
  unfold Rdiv. apply Rmult_le_compat_r; [apply Rlt_le, Rinv_0_lt_compat; exact Ha|]. apply sumn_le. intros t Ht.
  rewrite <- Rmult_plus_distr_l. apply Rmult_le_compat_l; [apply Hp; exact Ht|].
  pose proof (Rmax_lip (- y t - c) (- z t - c)) as K. replace (- y t - c - (- z t - c)) with (- (y t - z t)) in K by ring. rewrite Rabs_Ropp in K. exact K.
Qed.
Lemma cvar_lip T p y z alpha v w : (forall t, (t < T)%nat -> 0 <= p t) -> 0 < alpha ->
  is_cvar (to_list T p) (to_list T y) alpha v -> is_cvar (to_list T p) (to_list T z) alpha w ->
  Rabs (v - w) <= sumn T (fun t => p t * Rabs (y t - z t)) / alpha.
Proof.
  intros Hp Ha [V1 [cv V2]] [W1 [cw W2]].
  pose proof (ru_lip T p y z alpha cw Hp Ha) as K1. pose proof (ru_lip T p z y alpha cv Hp Ha) as K2. specialize (V1 cw). specialize (W1 cv).
  rewrite (sumn_ext T (fun t => p t * Rabs (z t - y t)) (fun t => p t * Rabs (y t - z t))) in K2 by (intros; rewrite Rabs_minus_sym; reflexivity).
  set (D := sumn T (fun t => p t * Rabs (y t - z t)) / alpha) in *. clearbody D. rewrite <- V2 in K2. rewrite <- W2 in K1.
  apply Rabs_le. lra.
Qed.

Lemma cv_abs a l : Un_cv a l -> Un_cv (fun k => Rabs (a k)) (Rabs l).
Proof. intros H e He. destruct (H e He) as [N HN]. exists N. intros k Hk. specialize (HN k Hk). unfold R_dist in *. eapply Rle_lt_trans; [apply Rabs_triang_inv2|exact HN]. Qed.
Lemma cv_squeeze a l b : (forall k, Rabs (a k - l) <= b k) -> Un_cv b 0 -> Un_cv a l.
Proof.
  intros H Hb e He. destruct (Hb e He) as [N HN]. exists N. intros k Hk. specialize (HN k Hk). unfold R_dist in *.
  rewrite Rminus_0_r in HN. eapply Rle_lt_trans; [apply H|]. eapply Rle_lt_trans; [apply Rle_abs|exact HN].
Qed.
Lemma continuous_turnover n w0 c : continuous n (turnover_cost n w0 c).
Proof.
  intros u x Hc. unfold turnover_cost. destruct w0 as [w0|]; [|apply cv_const]. destruct c as [c|]; [|apply cv_const].
  apply (cv_sumn n (fun k i => nth i c 0 * Rabs (u k i - nth i w0 0))). intros i Hi. apply cv_scale.
  apply (cv_abs (fun k => u k i - nth i w0 0)). apply (CV_minus (fun k => u k i) (fun _ => nth i w0 0)); [apply Hc; exact Hi|apply cv_const].
Qed.
Lemma continuous_cvar_cost N T Rm p alpha w0 costs cost : prob_vec T p -> 0 < alpha -> cvar_cost N T Rm p alpha w0 costs cost -> continuous N cost.
Proof.
  intros [Hp _] Ha Hcost u x Hc.
  set (r := fun y => cost y - turnover_cost N w0 costs y).
  assert (Hr : Un_cv (fun k => r (u k)) (r x)).
  { apply (cv_squeeze _ _ (fun k => sumn T (fun t => p t * Rabs (dot N (Rm t) (u k) - dot N (Rm t) x)) / alpha)).
    - intros k. apply (cvar_lip T p (fun t => dot N (Rm t) (u k)) (fun t => dot N (Rm t) x) alpha _ _ Hp Ha (Hcost (u k)) (Hcost x)).
    - apply (cv_ext (fun k => / alpha * sumn T (fun t => p t * Rabs (dot N (Rm t) (u k) - dot N (Rm t) x)))); [intros; unfold Rdiv; ring|].
      replace 0 with (/ alpha * sumn T (fun _ => 0)) by (rewrite (sumn_0 T (fun _ => 0)) by reflexivity; ring). apply cv_scale.
      apply (cv_sumn T (fun k t => p t * Rabs (dot N (Rm t) (u k) - dot N (Rm t) x))). intros t Ht.
      replace 0 with (p t * Rabs (dot N (Rm t) x - dot N (Rm t) x)) by (rewrite Rminus_eq_0, Rabs_R0; ring). apply cv_scale.
      apply (cv_abs (fun k => dot N (Rm t) (u k) - dot N (Rm t) x)). apply (CV_minus (fun k => dot N (Rm t) (u k)) (fun _ => dot N (Rm t) x)); [apply cv_dot; exact Hc|apply cv_const]. }
  apply (cv_ext (fun k => r (u k) + turnover_cost N w0 costs (u k))); [intros; unfold r; ring|].
  replace (cost x) with (r x + turnover_cost N w0 costs x) by (unfold r; ring).
  apply (CV_plus (fun k => r (u k)) (fun k => turnover_cost N w0 costs (u k))); [exact Hr|apply continuous_turnover; exact Hc].
Qed.

Lemma cvar_cost_exists N T Rm p alpha w0 costs : prob_vec T p -> 0 < alpha <= 1 -> exists cost, cvar_cost N T Rm p alpha w0 costs cost.
Proof.
  intros Hp Ha.
  exists (fun w => proj1_sig (ClassicalEpsilon.constructive_indefinite_description _ (cvar_exists T p (fun t => dot N (Rm t) w) alpha Hp Ha)) + turnover_cost N w0 costs w).
  intros w. match goal with |- is_cvar _ _ _ (?a + ?b - ?b) => replace (a + b - b) with a by ring end. exact (proj2_sig (ClassicalEpsilon.constructive_indefinite_description _ _)).
Qed.

Lemma cvar_lp_of_min N T Rm p alpha w0 costs G A target cost w : prob_vec T p -> 0 < alpha -> 
  (forall c, costs = Some c -> forall i, (i < N)%nat -> 0 <= nth i c 0) ->
  cvar_cost N T Rm p alpha w0 costs cost ->
  minimises (fun w => constrained N G A w /\ meets N (cvar_mean T p Rm) target w) cost w ->
  exists x, cp_optimum (cvar_lp N T Rm p alpha (turnover w0 costs) G A target) x.
Proof.
  intros Hp Ha Hc Hcost [[Hw Ht] Hm].
  set (lin := with_target N (cvar_mean T p Rm) (cvar_lin N T Rm (turnover w0 costs) G) target). set (eq := cvar_eq N T (turnover w0 costs) A).
  destruct (cvar_lp_attained N T Rm p alpha w0 costs G A w _ lin eq Ha Hw (Hcost w)) as (x & Hx & Hpt & Ho).
  change (mkCP _ _ _ _ _) with (cvar_lp N T Rm p alpha (turnover w0 costs) G A target) in Ho.
  exists x. split.
  - apply cvar_feasible_iff. split; [exact Hpt|]. destruct target as [t|]; simpl in *; auto. rewrite (dot_ext_r N _ x w); auto.
  - intros y Hy. apply cvar_feasible_iff in Hy as [Hy Hyt].
    pose proof (cvar_lp_lower N T Rm p alpha w0 costs G A lin eq y _ Hp Ha Hc Hy (Hcost y)) as K.
    change (mkCP _ _ _ _ _) with (cvar_lp N T Rm p alpha (turnover w0 costs) G A target) in K.
    assert (cost w <= cost y) by (apply Hm; split; [apply Hy|exact Hyt]). lra.
Qed.

Lemma nth_nonneg costs N : costs_nonneg costs -> forall c, costs = Some c -> forall i, (i < N)%nat -> 0 <= nth i c 0.
Proof. intros H c E i _. destruct (Nat.lt_ge_cases i (length c)) as [Hi|Hi]; [apply (H c E); apply nth_In; exact Hi|rewrite nth_overflow by exact Hi; lra]. Qed.

Lemma cvar_solve_total lp N T Rm p alpha w0 costs G A target : complete_cp lp -> prob_vec T p -> 0 < alpha <= 1 -> costs_nonneg costs ->
  bounded N (constrained N G A) -> (exists y, constrained N G A y /\ meets N (cvar_mean T p Rm) target y) ->
  exists x, cvar_solve_target lp N T Rm p alpha (turnover w0 costs) G A target = Ok x.
Proof.
  intros Hl Hp Ha Hc Hb Hy. destruct (cvar_cost_exists N T Rm p alpha w0 costs Hp Ha) as [cost Hcost].
  destruct (attained_general N (cvar_mean T p Rm) (constrained N G A) cost Hb (closed_constrained N G A) (continuous_cvar_cost _ _ _ _ _ _ _ _ Hp (proj1 Ha) Hcost) target Hy) as [w Hw].
  destruct (cvar_lp_of_min N T Rm p alpha w0 costs G A target cost w Hp (proj1 Ha) (nth_nonneg costs N Hc) Hcost Hw) as [x Hx].
  unfold cvar_solve_target. destruct (lp _) as [z|] eqn:E; [eauto|]. exfalso. exact (Hl _ x Hx E).
Qed.

(** A frontier between the cheapest portfolio and the largest return. *)
Lemma frontier_total n first fn num mean m : dot n mean first <= m -> (forall t, t <= m -> exists x, fn t = Ok x) ->
  exists cols, frontier n first fn num mean m = Ok cols.
Proof.
  intros Hlo Hfn. unfold frontier. destruct ((num <? 2)%Z || risclose (dot n mean first) m)%bool eqn:E; [eauto|].
  apply Bool.orb_false_iff in E as [E _]. apply Z.ltb_ge in E.
  match goal with |- context [mapM ?f ?l] => destruct (mapM_total f l) as [bs Hb] end; [|rewrite Hb; cbn [bind]; eauto].
  intros t Hin. apply in_map_iff in Hin as (k & <- & Hk). apply in_seq in Hk. apply Hfn. unfold grid_point.
  assert (HN : INR k <= IZR num - 1).
  { replace (IZR num) with (INR (Z.to_nat num)) by (rewrite INR_IZR_INZ, Z2Nat.id by lia; reflexivity).
    assert (INR k + 1 <= INR (Z.to_nat num)) by (rewrite <- S_INR; apply le_INR; lia). lra. }
  assert (Hd : 0 < IZR num - 1) by (assert (2 <= IZR num) by (apply IZR_le; lia); lra).
  assert (INR k * ((m - dot n mean first) / (IZR num - 1)) <= (IZR num - 1) * ((m - dot n mean first) / (IZR num - 1))).
  { apply Rmult_le_compat_r; [|exact HN]. unfold Rdiv. apply Rmult_le_pos; [lra|]. apply Rlt_le, Rinv_0_lt_compat, Hd. }
  replace ((IZR num - 1) * ((m - dot n mean first) / (IZR num - 1))) with (m - dot n mean first) in H by (field; lra). lra.
Qed.

Lemma cvar_max_total lp N T Rm p alpha w0 costs G A : exact_cp lp -> complete_cp lp -> prob_vec T p -> 0 < alpha <= 1 -> 
  bounded N (constrained N G A) -> (exists y, constrained N G A y) ->
  exists m, max_expected_return lp
         (max_return_lp (cvar_nvars N T (turnover w0 costs)) (hcat N (ropp (cvar_mean T p Rm)) zrow)
            (cvar_lin N T Rm (turnover w0 costs) G) (cvar_eq N T (turnover w0 costs) A)) = Ok m.
Proof.
  intros Hs Hl Hp Ha Hb He. set (tc := turnover w0 costs).
  set (P := max_return_lp _ _ _ _).
  assert (E : forall x, cp_feasible P x <-> lp_pt N T Rm tc G A x).
  { intros x. rewrite <- (cvar_pt_iff N T Rm p alpha). reflexivity. }
  destruct (max_exists N (constrained N G A) (cvar_mean T p Rm) Hb (closed_constrained N G A) He) as (m & (w & Hw & Em) & Hm).
  destruct (cvar_exists T p (fun t => dot N (Rm t) w) alpha Hp Ha) as [v Hv].
  destruct (cvar_lp_attained N T Rm p alpha w0 costs G A w v [] [] (proj1 Ha) Hw Hv) as (x & Hx & Hpt & _).
  assert (Eo : forall z, cp_obj P z = - dot N (cvar_mean T p Rm) z).
  { intros z. unfold P, cp_obj, max_return_lp. cbn [cp_n cp_c]. rewrite nvars_eq, (dot_hcat_pad N), dot_ropp. reflexivity. }
  assert (Ho : cp_optimum P x).
  { split; [apply E; exact Hpt|]. intros y Hy. apply E in Hy. rewrite !Eo. rewrite (dot_ext_r N _ x w) by exact Hx. pose proof (Hm y (proj2 (proj2 (proj2 Hy)))). lra. }
  unfold max_expected_return. destruct (lp P) as [z|] eqn:Ez; [eauto|]. exfalso. exact (Hl P x Ho Ez).
Qed.

Lemma cvar_frontier_total lp N T Rm p alpha w0 costs G A num : exact_cp lp -> complete_cp lp -> prob_vec T p -> 0 < alpha <= 1 -> costs_nonneg costs ->
  costs_shaped N w0 costs -> bounded N (constrained N G A) -> (exists y, constrained N G A y) ->
  exists cols, cvar_frontier lp N T Rm p alpha w0 costs G A num = Ok cols.
Proof.
  intros Hs Hl Hp Ha Hc Hsh Hb He. unfold cvar_frontier.
  assert (H : forall X (k : res X), (exists x, k = Ok x) -> exists x, cvar_init N (turnover w0 costs) k = Ok x).
  { intros X k [x ->]. exists x. unfold cvar_init, turnover. destruct w0 as [a|]; [|reflexivity]. destruct costs as [c|]; [|reflexivity].
    destruct (Hsh a c eq_refl eq_refl) as [E1 E2]. unfold check_shapes. rewrite E1, E2, Nat.eqb_refl. reflexivity. }
  apply H. destruct (cvar_solve_total lp N T Rm p alpha w0 costs G A None Hl Hp Ha Hc Hb) as [first Hf].
  { destruct He as [y Hy]. exists y. split; [exact Hy|exact I]. }
  rewrite Hf. cbn [bind]. destruct (cvar_max_total lp N T Rm p alpha w0 costs G A Hs Hl Hp Ha Hb He) as [m Hm]. rewrite Hm. cbn [bind].
  destruct (cvar_max_lp lp N T Rm p alpha w0 costs G A m Hs Hp Ha Hm) as [(y & Hy & Ey) Hmax].
  apply frontier_total.
  - apply Hmax. unfold cvar_solve_target in Hf. destruct (lp _) as [z|] eqn:Ez; [|discriminate]. injection Hf as <-. apply Hs in Ez as [Hz _]. apply cvar_feasible_iff in Hz as [Hz _]. apply Hz.
  - intros t Ht. apply (cvar_solve_total lp N T Rm p alpha w0 costs G A (Some t) Hl Hp Ha Hc Hb). exists y. split; [exact Hy|]. simpl. lra.
Qed.

Lemma cvar_portfolio_total lp N T Rm p alpha w0 costs G A target : complete_cp lp -> prob_vec T p -> 0 < alpha <= 1 -> costs_nonneg costs ->
  costs_shaped N w0 costs -> bounded N (constrained N G A) -> (exists y, constrained N G A y /\ meets N (cvar_mean T p Rm) target y) ->
  exists x, cvar_portfolio lp N T Rm p alpha w0 costs G A target = Ok x.
Proof.
  intros Hl Hp Ha Hc Hsh Hb He. destruct (cvar_solve_total lp N T Rm p alpha w0 costs G A target Hl Hp Ha Hc Hb He) as [x Hx]. exists x.
  unfold cvar_portfolio, cvar_init, turnover in *. destruct w0 as [a|]; [|exact Hx]. destruct costs as [c|]; [|exact Hx].
  destruct (Hsh a c eq_refl eq_refl) as [E1 E2]. unfold check_shapes. rewrite E1, E2, Nat.eqb_refl. exact Hx.
Qed.

(** ** Robust *)
Lemma sumn_abs_le n f : Rabs (sumn n f) <= sumn n (fun i => Rabs (f i)).
Proof. induction n as [|n IH]; simpl; [rewrite Rabs_R0; lra|]. eapply Rle_trans; [apply Rabs_triang|]. lra. Qed.
Lemma dot_bound n g x B : 0 <= B -> box n B x -> Rabs (dot n g x) <= B * sumn n (fun i => Rabs (g i)).
Proof.
  intros HB H. rewrite <- sumn_scale. unfold dot. eapply Rle_trans; [apply sumn_abs_le|]. apply sumn_le. intros i Hi. rewrite Rabs_mult, Rmult_comm.
  apply Rmult_le_compat_r; [apply Rabs_pos|]. apply H. exact Hi.
Qed.

Lemma continuous_norm n L : continuous n (fun x => norm2 n (mv n L x)).
Proof.
  intros u x Hc. unfold norm2. apply (continuity_seq sqrt (fun k => dot n (mv n L (u k)) (mv n L (u k)))).
  - apply continuity_pt_sqrt. apply dot_self_nonneg.
  - apply (cv_sumn n (fun k i => mv n L (u k) i * mv n L (u k) i)). intros i Hi.
    assert (C : Un_cv (fun k => mv n L (u k) i) (mv n L x i)) by (apply cv_dot; exact Hc). apply (CV_mult _ _ _ _ C C).
Qed.

Lemma robust_socp_total conelp n mean L pen cap G A : complete_cp conelp -> 0 <= pen -> bounded n (constrained n G A) ->
  (exists y, constrained n G A y /\ match cap with Some g => norm2 n (mv n L y) <= sqrt g | None => True end) ->
  exists r, robust_socp conelp n mean L false pen cap G A = Ok r.
Proof.
  intros Hs Hpen Hb He. apply bounded_box in Hb as (B & _ & HB).
  set (F := fun y => constrained n G A y /\ match cap with Some g => norm2 n (mv n L y) <= sqrt g | None => True end) in *.
  destruct (attains n B F (fun y => - dot n mean y + pen * norm2 n (mv n L y))) as (x & [Hx Hcap] & Hm).
  - apply closed_and; [apply closed_constrained|]. intros u x H Hc. destruct cap as [g|]; [|exact I].
    apply (cv_le (fun k => norm2 n (mv n L (u k)))); [apply continuous_norm; exact Hc|exact H].
  - intros u x Hc. apply (CV_plus (fun k => - dot n mean (u k)) (fun k => pen * norm2 n (mv n L (u k)))).
    + apply (CV_opp (fun k => dot n mean (u k))), cv_dot. exact Hc.
    + apply cv_scale. apply continuous_norm. exact Hc.
  - exact He.
  - intros z Hz. exists z. split; [exact Hz|]. split; [lra|]. apply HB. apply Hz.
  - set (y := hcat n x (cst (norm2 n (mv n L x)))).
    assert (Y : forall i, (i < n)%nat -> y i = x i) by (intros i Hi; unfold y, hcat; apply Nat.ltb_lt in Hi; rewrite Hi; reflexivity).
    assert (Yn : y n = norm2 n (mv n L x)) by (unfold y, hcat; rewrite Nat.ltb_irrefl; reflexivity).
    assert (Ny : norm2 n (mv n L y) = norm2 n (mv n L x)) by (apply norm2_ext; intros i Hi; apply mv_ext; exact Y).
    assert (Ho : cp_optimum (robust_cp n mean L pen cap G A) y).
    { split.
      - apply robust_feasible. rewrite Ny, Yn. split; [|split; [lra|destruct cap; auto]].
        destruct Hx as [H1 H2]. split; intros g h Hi; rewrite (dot_ext_r n g y x Y); auto.
      - intros z Hz. apply robust_feasible in Hz as (Z1 & Z2 & Z3). rewrite !robust_obj, Yn, (dot_ext_r n mean y x Y).
        assert (Fz : F z) by (split; [exact Z1|destruct cap; [lra|exact I]]). specialize (Hm z Fz). cbv beta in Hm.
        assert (pen * norm2 n (mv n L z) <= pen * z n) by (apply Rmult_le_compat_l; assumption). lra. }
    unfold robust_socp. destruct (conelp _) as [z|] eqn:Ez; [eauto|]. exfalso. exact (Hs _ y Ho Ez).
Qed.

(** ** Every positive definite matrix has a Cholesky factor *)
Lemma lower_solve n (L : mat) (b : vec) : (forall i, (i < n)%nat -> L i i <> 0) -> (forall i j, (i < j < n)%nat -> L i j = 0) ->
  exists y, forall i, (i < n)%nat -> dot n (L i) y = b i.
Proof.
  induction n as [|n IH]; intros Hd Hz; [exists zrow; intros i Hi; lia|].
  destruct IH as [y Hy]; [intros; apply Hd; lia|intros; apply Hz; lia|].
  exists (fun i => if (i =? n)%nat then (b n - dot n (L n) y) / L n n else y i). intros i Hi. unfold dot. simpl sumn. rewrite Nat.eqb_refl.
  rewrite (sumn_ext n _ (fun j => L i j * y j)) by (intros j Hj; destruct (Nat.eqb_spec j n); [lia|reflexivity]).
  destruct (Nat.eq_dec i n) as [-> | Hn].
  - fold (dot n (L n) y). field. apply Hd. lia.
  - rewrite (Hz i n) by lia. rewrite Rmult_0_l, Rplus_0_r. apply Hy. lia.
Qed.
Lemma upper_solve n (L : mat) (c : vec) : (forall i, (i < n)%nat -> L i i <> 0) -> (forall i j, (i < j < n)%nat -> L i j = 0) ->
  exists x, forall i, (i < n)%nat -> mv n (transpose L) x i = c i.
Proof.
  revert c. induction n as [|n IH]; intros c Hd Hz; [exists zrow; intros i Hi; lia|].
  set (xn := c n / L n n).
  destruct (IH (fun i => c i - L n i * xn)) as [x Hx]; [intros; apply Hd; lia|intros; apply Hz; lia|].
  exists (fun i => if (i =? n)%nat then xn else x i). intros i Hi. unfold mv, dot. simpl sumn. rewrite Nat.eqb_refl.
  rewrite (sumn_ext n _ (fun j => transpose L i j * x j)) by (intros j Hj; destruct (Nat.eqb_spec j n); [lia|reflexivity]).
  destruct (Nat.eq_dec i n) as [-> | Hn].
  - rewrite (sumn_0 n) by (intros j Hj; unfold transpose; rewrite Hz by lia; ring). unfold transpose, xn. field. apply Hd. lia.
  - specialize (Hx i ltac:(lia)). unfold mv, dot in Hx. rewrite Hx. unfold transpose. ring.
Qed.

Lemma quad_S n M x : symmetric (S n) M -> quad (S n) M x = quad n M x + 2 * (x n * dot n (fun i => M i n) x) + M n n * x n * x n.
Proof.
  intros Hs. unfold quad. simpl sumn. 
  rewrite sumn_plus. assert (E : sumn n (fun i => M i n * x i * x n) = x n * dot n (fun i => M i n) x).
  { unfold dot. rewrite <- sumn_scale. apply sumn_ext. intros; ring. }
  assert (E2 : sumn n (fun j => M n j * x n * x j) = x n * dot n (fun i => M i n) x).
  { unfold dot. rewrite <- sumn_scale. apply sumn_ext. intros j Hj. rewrite (Hs n j) by lia. ring. }
  rewrite E, E2. ring.
Qed.

Theorem cholesky_exists n M : symmetric n M -> positive_definite n M -> exists L, is_cholesky n M L.
Proof.
  induction n as [|n IH]; intros Hs Hp.
  - exists (fun _ _ => 0). repeat split; intros; lia.
  - assert (Hs' : symmetric n M) by (intros i j Hi Hj; apply Hs; lia).
    destruct IH as (L & L1 & L2 & L3); [exact Hs'| |].
    { intros x (i & Hi & Hx). pose proof (Hp (fun j => if (j <? n)%nat then x j else 0)) as K. rewrite quad_S in K by exact Hs. rewrite Nat.ltb_irrefl in K.
      rewrite (quad_ext n M M _ x) in K; [|reflexivity|intros j Hj; apply Nat.ltb_lt in Hj; rewrite Hj; reflexivity].
      assert (K' : 0 < quad n M x + 2 * (0 * dot n (fun i => M i n) (fun j => if (j <? n)%nat then x j else 0)) + M n n * 0 * 0); [|lra].
      apply K. exists i. split; [lia|]. apply Nat.ltb_lt in Hi. rewrite Hi. exact Hx. }
    assert (Ld : forall i, (i < n)%nat -> L i i <> 0) by (intros i Hi; specialize (L1 i Hi); lra).
    destruct (lower_solve n L (fun i => M i n) Ld L2) as [y Hy].
    destruct (upper_solve n L (fun i => - y i) Ld L2) as [x Hx].
    assert (Hpos : 0 < M n n - dot n y y).
    { set (z := fun i => if (i <? n)%nat then x i else 1).
      assert (Z : forall i, (i < n)%nat -> z i = x i) by (intros i Hi; unfold z; apply Nat.ltb_lt in Hi; rewrite Hi; reflexivity).
      assert (Zn : z n = 1) by (unfold z; rewrite Nat.ltb_irrefl; reflexivity).
      assert (K : 0 < quad (S n) M z) by (apply Hp; exists n; split; [lia|]; rewrite Zn; lra).
      rewrite quad_S, Zn in K by exact Hs.
      rewrite (quad_ext n M M z x) in K by auto. rewrite (dot_ext_r n _ z x Z) in K.
      assert (E1 : quad n M x = dot n y y).
      { rewrite (quad_cholesky n M L x L3). unfold dot. apply sumn_ext. intros i Hi. rewrite (Hx i Hi). ring. }
      assert (E2 : dot n (fun i => M i n) x = - dot n y y).
      { transitivity (dot n (mv n L y) x); [apply dot_ext; auto; intros i Hi; symmetry; apply Hy; exact Hi|].
        rewrite dot_mv_transpose. rewrite (dot_ext n y (mv n (transpose L) x) y (fun i => - y i)) by auto.
        unfold dot. rewrite (sumn_ext n _ (fun i => -1 * (y i * y i))) by (intros; ring). rewrite sumn_scale. ring. }
      rewrite E1, E2 in K. lra. }
    set (r := sqrt (M n n - dot n y y)).
    assert (Hr : 0 < r) by (apply sqrt_lt_R0; exact Hpos).
    assert (Er : r * r = M n n - dot n y y) by (apply sqrt_sqrt; lra).
    set (L' := fun i j => if (i <? n)%nat then (if (j <? n)%nat then L i j else 0) else if (j <? n)%nat then y j else if (j =? n)%nat then r else 0).
    assert (A1 : forall i j, (i < n)%nat -> (j < n)%nat -> L' i j = L i j) by (intros i j Hi Hj; unfold L'; apply Nat.ltb_lt in Hi, Hj; rewrite Hi, Hj; reflexivity).
    assert (A2 : forall i, (i < n)%nat -> L' i n = 0) by (intros i Hi; unfold L'; apply Nat.ltb_lt in Hi; rewrite Hi, Nat.ltb_irrefl; reflexivity).
    assert (A3 : forall j, (j < n)%nat -> L' n j = y j) by (intros j Hj; unfold L'; apply Nat.ltb_lt in Hj; rewrite Hj, Nat.ltb_irrefl; reflexivity).
    assert (A4 : L' n n = r) by (unfold L'; rewrite Nat.ltb_irrefl, Nat.eqb_refl; reflexivity).
    exists L'. split; [|split].
    + intros i Hi. destruct (Nat.eq_dec i n) as [-> | Hn]; [rewrite A4; exact Hr|]. rewrite A1 by lia. apply L1. lia.
    + intros i j Hij. destruct (Nat.eq_dec j n) as [-> | Hn]; [apply A2; lia|]. rewrite A1 by lia. apply L2. lia.
    + intros i j Hi Hj. unfold mmul, transpose. simpl sumn.
      destruct (Nat.eq_dec i n) as [-> | Hin]; destruct (Nat.eq_dec j n) as [-> | Hjn].
      * rewrite A4, Er. rewrite (sumn_ext n _ (fun k => y k * y k)) by (intros k Hk; rewrite A3 by exact Hk; reflexivity). fold (dot n y y). ring.
      * rewrite (A2 j) by lia. rewrite (sumn_ext n _ (fun k => L j k * y k)) by (intros k Hk; rewrite A3, A1 by lia; ring).
        fold (dot n (L j) y). rewrite Hy by lia. rewrite (Hs n j) by lia. ring.
      * rewrite (A2 i) by lia. rewrite (sumn_ext n _ (fun k => L i k * y k)) by (intros k Hk; rewrite A3, A1 by lia; ring).
        fold (dot n (L i) y). rewrite Hy by lia. ring.
      * rewrite (A2 i), (A2 j) by lia. rewrite (sumn_ext n _ (fun k => L i k * L j k)) by (intros k Hk; rewrite !A1 by lia; reflexivity).
        rewrite Rmult_0_l, Rplus_0_r. apply (L3 i j); lia.
Qed.

Lemma quad_jitter n M j x : quad n (plus_jitter M j) x = quad n M x + j * dot n x x.
Proof.
  unfold plus_jitter. rewrite (quad_plus n M (fun a b => j * delta a b) x), (quad_scale n j delta x). f_equal. f_equal.
  unfold quad, dot. apply sumn_ext. intros i Hi.
  rewrite (sumn_ext n (fun k => delta i k * x i * x k) (fun k => delta i k * (x i * x k))) by (intros; ring). apply (sumn_delta_r n i (fun k => x i * x k)). exact Hi.
Qed.
Lemma sumn_term_le n i f : (forall k, (k < n)%nat -> 0 <= f k) -> (i < n)%nat -> f i <= sumn n f.
Proof.
  intros H. induction n as [|n IH]; intros Hi; [lia|]. simpl. destruct (Nat.eq_dec i n) as [-> | Hn].
  - assert (0 <= sumn n f) by (apply sumn_nonneg; intros; apply H; lia). lra.
  - assert (f i <= sumn n f) by (apply IH; [intros; apply H; lia|lia]). specialize (H n ltac:(lia)). lra.
Qed.
Lemma dot_self_pos n x i : (i < n)%nat -> x i <> 0 -> 0 < dot n x x.
Proof.
  intros Hi Hx. unfold dot. apply Rlt_le_trans with (x i * x i); [apply Rsqr_pos_lt in Hx; exact Hx|].
  apply (sumn_term_le n i (fun i => x i * x i)); [intros k Hk; apply Rle_0_sqr|exact Hi].
Qed.
Lemma psd_jitter_pd n M j : psd n M -> 0 < j -> positive_definite n (plus_jitter M j).
Proof. intros H Hj x (i & Hi & Hx). rewrite quad_jitter. specialize (H x). pose proof (dot_self_pos n x i Hi Hx). nra. Qed.

Lemma cholesky_pd_total chol n M : complete_chol chol -> psd n M -> exists L, cholesky_pd chol n M = Ok L.
Proof.
  intros Hc Hp. unfold cholesky_pd. cbn [cholesky_loop]. destruct (chol n (if Reqb 0 0 then symmetrise M else _)) as [L|]; [eauto|].
  destruct (Reqb_spec 0 0) as [_|]; [|lra]. destruct (Reqb_spec (1 / 1000000000000) 0) as [E|_]; [lra|].
  assert (Hs : psd n (symmetrise M)).
  { intros x. replace (quad n (symmetrise M) x) with (quad n M x); [apply Hp|]. unfold symmetrise.
    rewrite (quad_scale n (1 / 2) (fun i j => M i j + M j i) x), (quad_plus n M (fun i j => M j i) x).
    assert (E : quad n (fun i j => M j i) x = quad n M x); [|rewrite E; lra].
    unfold quad. rewrite sumn_swap. apply sumn_ext. intros i Hi. apply sumn_ext. intros; ring. }
  destruct (cholesky_exists n (plus_jitter (symmetrise M) (1 / 1000000000000))) as [L HL].
  - intros i j Hi Hj. unfold plus_jitter, symmetrise, delta. rewrite (Nat.eqb_sym j i). ring.
  - apply psd_jitter_pd; [exact Hs|lra].
  - destruct (chol n (jittered (symmetrise M) (1 / 1000000000000))) as [L'|] eqn:E; [eauto|]. exfalso. revert E. apply (Hc n _ L).
    apply (is_cholesky_ext n (plus_jitter (symmetrise M) (1 / 1000000000000))); [|exact HL]. intros i j Hi Hj. unfold plus_jitter, jittered, delta. reflexivity.
Qed.
