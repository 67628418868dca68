(** C125-C127: VaR and CVaR as computed in binary64. *)
From Flocq Require Import Core.
From Verif Require Import RBase SortLib RiskModel RiskSpec RiskProofs FpLib FpModel FpSpec FpProofs FpProofs2 FpProofs3.
Open Scope R_scope.

(** Left-to-right addition is a valid [np.sum]. *)
Example left_to_right_sums : sums (lsum_f 0).
Proof. intros l H. apply lsum_f_0. exact H. Qed.

(** C125.  Let [p] be a probability vector and [conf] a level, both passed rounded to binary64 (or left to their defaults), and let the P&L
    columns [X] handed to the search be within [eps] of the exact columns [Y].  Then every VaR returned is within [eps] of an exact quantile
    of the exact P&L under [p], at a tail level within [(2T+6) 2^-53] of [1 - conf]. *)
Theorem fp_var_near_quantile : forall argsort T X Y p conf out eps,
  sorts Rle 0 argsort -> p_ok p T -> 0 < eff_conf conf < 1 ->
  INR T * ur <= 1 / 8 -> slack T <= eff_conf conf ->
  (forall x, In x X -> length x = T) -> Forall2 (within eps) X Y ->
  f_portfolio_var argsort T X (option_map (map rnd) p) (option_map rnd conf) = Ok out ->
  Forall2 (fun y v => exists b q, Rabs (b - (1 - eff_conf conf)) <= slack T /\ is_quantile (eff_p T p) y b q /\ Rabs (- v - q) <= eps) Y out.
Proof. exact f_var_api_l. Qed.

(** The computed P&L itself: one entry of [R @ w] is off by at most [gam n] times the sum of the magnitudes, plus underflow. *)
Lemma map2_combine {A B C} (f : A -> B -> C) x y : map2 f x y = map (fun z => f (fst z) (snd z)) (combine x y).
Proof. revert y. induction x as [|a x IH]; intros [|b y]; simpl; [reflexivity..|]. rewrite IH. reflexivity. Qed.
Theorem fp_pnl_error : forall vdot rows w, dots vdot -> (forall z, In z w -> isf z) ->
  (forall row, In row rows -> length row = length w /\ forall z, In z row -> isf z) ->
  Forall2 (fun row v => Rabs (v - rdot row w) <=
    gam (length w) * rsum (map2 (fun a b => Rabs (a * b)) row w) + INR (length w) * eta * (1 + gam (length w))) rows (f_pnl vdot rows w).
Proof.
  intros vdot rows w Hd Hw. induction rows as [|row rows IH]; intros Hr; [constructor|]. cbn [f_pnl map]. constructor; [|apply IH; intros; apply Hr; right; assumption].
  destruct (Hr row (or_introl eq_refl)) as (Hl & Hf). destruct (fdot_err _ _ _ (Hd row w Hl Hf Hw)) as (K & _). unfold rdot. rewrite !map2_combine. unfold dexact, dabs, dbound in K. rewrite combine_length, Hl, Nat.min_id in K. exact K.
Qed.

(** The quantile at exactly [1 - conf] is not what is returned: with 20 equally likely scenarios and the default 95% confidence the
    binary64 tail level exceeds the binary64 probability 1/20 by 6 * 2^-57, and the search moves on to the second-worst scenario, for every
    P&L; exact arithmetic picks the worst one. *)
Lemma rnd_95 : rnd (95 / 100) = 8556839292003942 / 9007199254740992.
Proof.
  rewrite (rnd_val (95 / 100) 8556839292003942 (-53)); [simpl; lra|lia|simpl; lra|]. simpl (bpow _ _). apply Rabs_def1; lra.
Qed.
Lemma rnd_1_20 : rnd (1 / 20) = 7205759403792794 / 144115188075855872.
Proof.
  rewrite (rnd_val (1 / 20) 7205759403792794 (-57)); [simpl; lra|lia|simpl; lra|]. simpl (bpow _ _). apply Rabs_def1; lra.
Qed.
Lemma tail_95 : fsub 1 (rnd (95 / 100)) = 7205759403792800 / 144115188075855872.
Proof. rewrite one_minus_exact; [|apply rnd_isf|rewrite rnd_95; lra]. rewrite rnd_95. lra. Qed.
Lemma take_repeat (v : R) n o : (forall i, In i o -> (i < n)%nat) -> take 0 (repeat v n) o = repeat v (length o).
Proof.
  unfold take. induction o as [|i o IH]; intros H; [reflexivity|]. cbn [map length repeat]. rewrite IH by (intros; apply H; right; assumption). f_equal.
  rewrite nth_indep with (d' := v) by (rewrite repeat_length; apply H; left; reflexivity). apply nth_repeat.
Qed.

Theorem fp_var_default_level_refuted : forall argsort x, sorts Rle 0 argsort -> length x = 20%nat ->
  f_portfolio_var argsort 20 [x] None None = Ok [- nth 1 (take 0 x (argsort x)) 0] /\
  is_quantile (eff_p 20 None) x (1 - eff_conf None) (nth 0 (take 0 x (argsort x)) 0).
Proof.
  intros argsort x Hs Hl. assert (Ho : length (argsort x) = 20%nat) by (rewrite (argsort_length _ _ _ _ (Hs x)); exact Hl).
  assert (Hi : forall i, In i (argsort x) -> (i < 20)%nat) by (intros i Hi; rewrite <- Hl; eapply argsort_in; [apply Hs|exact Hi]). split.
  - unfold f_portfolio_var, f_portfolio_risk. cbn [f_default_p bind]. rewrite (proj2 (Rltb_true _ _)) by (rewrite rnd_95; lra). rewrite (proj2 (Rltb_true _ _)) by (rewrite rnd_95; lra).
    cbn [andb negb]. unfold broadcast_p. rewrite repeat_length. cbn [Nat.eqb bind map]. do 3 f_equal. unfold f_var_pnl.
    rewrite (take_repeat _ _ _ Hi), Ho. rewrite tail_95. replace (INR 20) with 20 by (simpl; lra). unfold fdiv at 1. rewrite rnd_1_20.
    set (p := 7205759403792794 / 144115188075855872). set (t := 7205759403792800 / 144115188075855872). cbn [repeat fcumsum map argmax_bool first_true].
    assert (Fp : isf p) by (unfold p; rewrite <- rnd_1_20; apply rnd_isf). assert (Ft : isf t) by (unfold t; rewrite <- tail_95; apply rnd_isf).
    assert (E0 : fadd 0 p = p) by (unfold fadd; rewrite Rplus_0_l; apply rnd_id; exact Fp). rewrite E0.
    assert (E1 : t <= fadd p p) by (rewrite <- (rnd_id t Ft); apply rnd_le; unfold p, t; lra).
    rewrite (proj2 (Rleb_false t p)) by (unfold p, t; lra). rewrite (proj2 (Rleb_true t (fadd p p)) E1). reflexivity.
  - pose proof (var_is_quantile argsort (1 - eff_conf None) x (eff_p 20 None) Hs) as HQ. rewrite Hl in HQ.
    specialize (HQ (uniform_prob_vector 20 ltac:(lia)) ltac:(simpl; lra)). unfold var_pnl in HQ. cbn [eff_p eff_conf] in *. replace (INR 20) with 20 in * by (simpl; lra).
    rewrite (take_repeat _ _ _ Hi), Ho in HQ. cbn [repeat cumsum map] in HQ. rewrite (proj2 (Rleb_true (1 - 95 / 100) (0 + 1 / 20))) in HQ by lra. exact HQ.
Qed.

(** Hypotheses of C125 met by the very same call: the level found, 1/10, is not within the slack, but one just above 1/20 is. *)
Example fp_var_hypotheses : p_ok None 20 /\ 0 < eff_conf None < 1 /\ INR 20 * ur <= 1 / 8 /\ slack 20 <= eff_conf None.
Proof. unfold slack. rewrite ur_val. simpl. repeat split; lra. Qed.

(** C126.  Under the same conventions, with the computed P&L at most [M] in magnitude, every CVaR returned is within [eps + cvar_bound T M (1-conf)] of the exact
    CVaR of the exact P&L; for 1000 scenarios at 95% that is about 2.7e-11 times [M]. *)
Theorem fp_cvar_accurate : forall npsum argsort T X Y p conf out eps M,
  sums npsum -> sorts Rle 0 argsort -> p_ok p T -> 0 < eff_conf conf < 1 ->
  INR T * ur <= 1 / 8 -> slack T <= eff_conf conf <= 1 - slack T ->
  (forall x, In x X -> length x = T /\ forall y, In y x -> Rabs y <= M) -> Forall2 (within eps) X Y ->
  f_portfolio_cvar npsum argsort T X (option_map (map rnd) p) (option_map rnd conf) = Ok out ->
  Forall2 (fun y v => forall v', is_cvar (eff_p T p) y (1 - eff_conf conf) v' -> Rabs (v - v') <= eps + cvar_bound T M (1 - eff_conf conf)) Y out.
Proof. exact f_cvar_api_l. Qed.

Example fp_cvar_bound_1000 : cvar_bound 1000 1 (1 - 95 / 100) <= 28 / 1000000000000.
Proof.
  unfold cvar_bound. pose proof eta_ur. pose proof ur_pos. pose proof ur_val as E. replace (INR 1000) with 1000 by (rewrite INR_IZR_INZ; reflexivity).
  apply Rmult_le_reg_r with (1 - 95 / 100); [lra|]. unfold Rdiv at 1. rewrite Rmult_assoc, Rinv_l by lra. nra.
Qed.
(** The call returns a value for any valid level, so the hypotheses are met. *)
Example fp_cvar_returns : exists out, f_portfolio_cvar (lsum_f 0) (argsort_by Rleb 0) 2 [[1; 2]] None None = Ok out.
Proof.
  unfold f_portfolio_cvar, f_portfolio_risk. rewrite (proj2 (Rltb_true _ _)) by (rewrite rnd_95; lra). rewrite (proj2 (Rltb_true _ _)) by (rewrite rnd_95; lra).
  cbn [andb negb f_default_p bind broadcast_p repeat length Nat.eqb]. eexists. reflexivity.
Qed.

(** Left-to-right accumulation of rounded products is one of the evaluations of an inner product. *)
Lemma lsum_dot_tree ts : forall t, exists t', dterms t' = dterms t ++ ts /\ dval t' = lsum_f (dval t) (map (fun z => fmul (fst z) (snd z)) ts).
Proof.
  induction ts as [|[a b] ts IH]; intros t; [exists t; rewrite app_nil_r; auto|]. destruct (IH (DAdd t (DProd a b))) as (t' & E1 & E2). exists t'. split; [rewrite E1; cbn [dterms]; rewrite <- app_assoc; reflexivity|exact E2].
Qed.
Example left_to_right_dots : dots (f_dot (lsum_f 0)).
Proof.
  intros x y _ _ _. unfold fdot_of, f_dot. rewrite map2_combine. destruct (combine x y) as [|[a b] ts]; [left; split; reflexivity|]. right.
  destruct (lsum_dot_tree ts (DProd a b)) as (t & E1 & E2). exists t. split; [rewrite E1; reflexivity|]. rewrite E2. cbn [map lsum_f dval fst snd]. f_equal. unfold fadd, fmul. rewrite Rplus_0_l. symmetry. apply rnd_id, rnd_isf.
Qed.

Print Assumptions fp_var_near_quantile.
Print Assumptions fp_pnl_error.
Print Assumptions fp_var_default_level_refuted.
Print Assumptions fp_cvar_accurate.
