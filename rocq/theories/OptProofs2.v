(** Proofs about MeanCVaR. *)
From Verif Require Import RBase SortLib QpBase RiskModel RiskSpec RiskProofs OptModel OptSpec OptProofs.
Open Scope R_scope.

Lemma rsum_seq T (f : nat -> R) s : rsum (map f (seq s T)) = sumn T (fun t => f (s + t)%nat).
Proof.
  revert s. induction T as [|T IH]; intros s; [reflexivity|].
  rewrite seq_S, map_app, rsum_app, IH. simpl. lra.
Qed.

Lemma map2_seq {B} (f : R -> R -> B) T (p y : nat -> R) s :
  map2 f (map p (seq s T)) (map y (seq s T)) = map (fun t => f (p t) (y t)) (seq s T).
Proof. revert s; induction T as [|T IH]; intros s; simpl; [reflexivity|]. rewrite IH. reflexivity. Qed.

Lemma expect_to_list T p y f : expect (to_list T p) (to_list T y) f = sumn T (fun t => p t * f (y t)).
Proof. unfold expect, to_list. rewrite map2_seq, rsum_seq. reflexivity. Qed.

Lemma to_list_length T f : length (to_list T f) = T.
Proof. unfold to_list. rewrite map_length, seq_length. reflexivity. Qed.

Lemma prob_vec_list T p : prob_vec T p -> prob_vector (to_list T p) T.
Proof.
  intros [H1 H2]. split; [apply to_list_length|]. split.
  - intros q Hq. apply in_map_iff in Hq as (t & <- & Ht). apply in_seq in Ht. apply H1. lia.
  - unfold to_list. rewrite rsum_seq. exact H2.
Qed.

(** The parts of an LP point. *)
Definition pt_c (N : nat) (x : vec) : R := shift N x 0%nat.
Definition pt_xi (N : nat) (x : vec) : vec := shift 1 (shift N x).
Definition pt_u (N T : nat) (x : vec) : vec := shift T (pt_xi N x).

Definition tcw (tc : option (list R * list R)) : nat -> nat := fun N => match tc with Some _ => (N + N)%nat | None => 0%nat end.

Lemma cvar_obj_l N T p alpha tc lin eq x :
  cp_obj (mkCP (cvar_nvars N T tc) (cvar_c N T p alpha tc) lin eq []) x =
  pt_c N x + dot T (fun t => p t / alpha) (pt_xi N x) +
  match tc with
  | Some (_, c) => sumn N (fun i => nth i c 0 * (pt_u N T x i + pt_u N T x (N + i)%nat))
  | None => 0
  end.
Proof.
  unfold cp_obj; simpl. unfold cvar_c, cvar_nvars.
  rewrite (dot_hcat N), dot_zrow, (dot_hcat 1), dot_cst1, (dot_hcat T).
  change (shift N x 0%nat) with (pt_c N x). change (shift 1 (shift N x)) with (pt_xi N x).
  change (shift T (pt_xi N x)) with (pt_u N T x).
  destruct tc as [[w0 c]|].
  - rewrite dot_hcat. unfold dot at 2 3. rewrite <- sumn_plus.
    rewrite (sumn_ext N (fun i => of_list c i * pt_u N T x i + of_list c i * shift N (pt_u N T x) i)
              (fun i => nth i c 0 * (pt_u N T x i + pt_u N T x (N + i)%nat))).
    + lra.
    + intros i _. unfold of_list, shift. lra.
  - unfold dot at 2. simpl. lra.
Qed.

Definition trade_ok N T (tc : option (list R * list R)) (x : vec) : Prop :=
  match tc with
  | Some (w0, _) => (forall i, (i < N + N)%nat -> 0 <= pt_u N T x i) /\
      forall i, (i < N)%nat -> x i - pt_u N T x i + pt_u N T x (N + i)%nat = nth i w0 0
  | None => True
  end.

Definition lp_pt N T Rm tc G A x : Prop :=
  (forall t, (t < T)%nat -> - dot N (Rm t) x - pt_c N x <= pt_xi N x t) /\
  (forall t, (t < T)%nat -> 0 <= pt_xi N x t) /\
  trade_ok N T tc x /\ constrained N G A x.

Lemma in_map_seq {A} (f : nat -> A) T y : In y (map f (seq 0 T)) <-> exists t, (t < T)%nat /\ f t = y.
Proof.
  rewrite in_map_iff. split; intros (t & H1 & H2); exists t.
  - apply in_seq in H2. split; [lia|auto].
  - split; auto. apply in_seq. lia.
Qed.

Lemma row_ru N T (Rm : nat -> vec) t e x : (t < T)%nat ->
  dot (N + (1 + (T + e))) (hcat N (ropp (Rm t)) (hcat 1 (cst (-1)) (hcat T (ropp (eye_row t)) zrow))) x =
  - dot N (Rm t) x - pt_c N x - pt_xi N x t.
Proof.
  intros Ht. rewrite (dot_hcat N), (dot_hcat 1), dot_cst1, dot_hcat_pad, !dot_ropp, dot_eye by auto.
  unfold pt_c, pt_xi. lra.
Qed.
Lemma row_xi N T t e x : (t < T)%nat ->
  dot (N + (1 + (T + e))) (hcat N zrow (hcat 1 zrow (hcat T (ropp (eye_row t)) zrow))) x = - pt_xi N x t.
Proof.
  intros Ht. rewrite (dot_hcat N), (dot_hcat 1), dot_hcat_pad, !dot_zrow, dot_ropp, dot_eye by auto.
  unfold pt_xi. lra.
Qed.
Lemma row_u N T i e x : (i < e)%nat ->
  dot (N + (1 + (T + e))) (hcat N zrow (hcat 1 zrow (hcat T zrow (ropp (eye_row i))))) x = - pt_u N T x i.
Proof.
  intros Ht. rewrite (dot_hcat N), (dot_hcat 1), (dot_hcat T), !dot_zrow, dot_ropp, dot_eye by auto.
  unfold pt_u, pt_xi. lra.
Qed.
Lemma row_trade N T i x : (i < N)%nat ->
  dot (N + (1 + (T + (N + N)))) (hcat N (eye_row i) (hcat 1 zrow (hcat T zrow (hcat N (ropp (eye_row i)) (eye_row i))))) x
  = x i - pt_u N T x i + pt_u N T x (N + i)%nat.
Proof.
  intros Ht. rewrite (dot_hcat N), (dot_hcat 1), (dot_hcat T), (dot_hcat N), !dot_zrow, dot_ropp, !dot_eye by auto.
  unfold pt_u, pt_xi, shift. lra.
Qed.

Lemma nvars_eq N T tc : cvar_nvars N T tc = (N + (1 + (T + tcw tc N)))%nat.
Proof. destruct tc as [[]|]; reflexivity. Qed.

Lemma cvar_pt_iff N T Rm p alpha tc G A x :
  cp_feasible (cvar_lp N T Rm p alpha tc G A None) x <-> lp_pt N T Rm tc G A x.
Proof.
  unfold cp_feasible, lp_pt, constrained, cvar_lp; simpl. rewrite nvars_eq.
  unfold cvar_lin, cvar_eq. split.
  - intros (H1 & H2 & _). repeat split.
    + intros t Ht. specialize (H1 (hcat N (ropp (Rm t)) (hcat 1 (cst (-1)) (hcat T (ropp (eye_row t)) zrow))) 0).
      rewrite row_ru in H1 by auto. enough (- dot N (Rm t) x - pt_c N x - pt_xi N x t <= 0) by lra.
      apply H1. apply in_or_app. left. apply in_map_seq. eauto.
    + intros t Ht. specialize (H1 (hcat N zrow (hcat 1 zrow (hcat T (ropp (eye_row t)) zrow))) 0).
      rewrite row_xi in H1 by auto. enough (- pt_xi N x t <= 0) by lra.
      apply H1. apply in_or_app. right. apply in_or_app. left. apply in_map_seq. eauto.
    + destruct tc as [[w0 c]|]; simpl in *; [|exact I]. split.
      * intros i Hi. specialize (H1 (hcat N zrow (hcat 1 zrow (hcat T zrow (ropp (eye_row i))))) 0).
        rewrite row_u in H1 by auto. enough (- pt_u N T x i <= 0) by lra.
        apply H1. apply in_or_app. right. apply in_or_app. right. apply in_or_app. left. apply in_map_seq. eauto.
      * intros i Hi. rewrite <- (row_trade N T i x Hi). apply H2. apply in_or_app. right. apply in_map_seq.
        exists i. split; auto.
    + intros g h Hi. specialize (H1 (hcat N g zrow) h). rewrite dot_hcat_pad in H1. apply H1.
      do 3 (apply in_or_app; right). apply in_map_iff. exists (g, h). auto.
    + intros a b Hi. specialize (H2 (hcat N a zrow) b). rewrite dot_hcat_pad in H2. apply H2.
      apply in_or_app. left. apply in_map_iff. exists (a, b). auto.
  - intros (H1 & H2 & H3 & H4 & H5). split; [|split].
    + intros g h Hi. apply in_app_or in Hi as [Hi|Hi].
      { apply in_map_seq in Hi as (t & Ht & E). injection E as <- <-. rewrite row_ru by auto. specialize (H1 t Ht). lra. }
      apply in_app_or in Hi as [Hi|Hi].
      { apply in_map_seq in Hi as (t & Ht & E). injection E as <- <-. rewrite row_xi by auto. specialize (H2 t Ht). lra. }
      apply in_app_or in Hi as [Hi|Hi].
      { destruct tc as [[w0 c]|]; [|destruct Hi].
        apply in_map_seq in Hi as (i & Hi & E). injection E as <- <-. simpl tcw. rewrite row_u by auto.
        destruct H3 as [H3 _]. specialize (H3 i Hi). lra. }
      apply in_map_iff in Hi as ([g' h'] & E & Hi). injection E as <- <-. simpl. rewrite dot_hcat_pad. auto.
    + intros a b Hi. apply in_app_or in Hi as [Hi|Hi].
      { apply in_map_iff in Hi as ([a' b'] & E & Hi). injection E as <- <-. simpl. rewrite dot_hcat_pad. auto. }
      destruct tc as [[w0 c]|]; [|destruct Hi].
      apply in_map_seq in Hi as (i & Hi & E). injection E as <- <-. simpl tcw. rewrite row_trade by auto.
      destruct H3 as [_ H3]. apply H3. auto.
    + intros blk [].
Qed.

Lemma cvar_feasible_iff N T Rm p alpha tc G A target x :
  cp_feasible (cvar_lp N T Rm p alpha tc G A target) x <->
  lp_pt N T Rm tc G A x /\ meets N (cvar_mean T p Rm) target x.
Proof.
  destruct target as [t|]; [|rewrite cvar_pt_iff; simpl; tauto].
  rewrite <- (cvar_pt_iff N T Rm p alpha).
  unfold cp_feasible, cvar_lp; simpl.
  assert (E : dot (cvar_nvars N T tc) (hcat N (ropp (cvar_mean T p Rm)) zrow) x = - dot N (cvar_mean T p Rm) x).
  { rewrite nvars_eq, dot_hcat_pad, dot_ropp. reflexivity. }
  split.
  - intros (H1 & H2 & H3). repeat split; auto.
    + intros g h Hi. apply H1, in_or_app. auto.
    + specialize (H1 (hcat N (ropp (cvar_mean T p Rm)) zrow) (- t)). rewrite E in H1.
      assert (- dot N (cvar_mean T p Rm) x <= - t) by (apply H1, in_or_app; simpl; auto). lra.
  - intros ((H1 & H2 & H3) & H4). repeat split; auto.
    intros g h Hi. apply in_app_or in Hi as [Hi|[Hi|[]]]; auto. injection Hi as <- <-. rewrite E. lra.
Qed.

Lemma dot_ext_r n u v v' : (forall i, (i < n)%nat -> v i = v' i) -> dot n u v = dot n u v'.
Proof. intros. apply dot_ext; auto. Qed.

(** Any LP point costs at least CVaR plus turnover ... *)
Lemma cvar_lp_lower N T Rm p alpha w0 costs G A lin eq x v : prob_vec T p -> 0 < alpha ->
  (forall c, costs = Some c -> forall i, (i < N)%nat -> 0 <= nth i c 0) ->
  lp_pt N T Rm (turnover w0 costs) G A x ->
  is_cvar (to_list T p) (to_list T (fun t => dot N (Rm t) x)) alpha v ->
  v + turnover_cost N w0 costs x <=
  cp_obj (mkCP (cvar_nvars N T (turnover w0 costs)) (cvar_c N T p alpha (turnover w0 costs)) lin eq []) x.
Proof.
  intros [Hp _] Ha Hc (H1 & H2 & H3 & _) [Hv _]. rewrite cvar_obj_l.
  specialize (Hv (pt_c N x)). unfold ru in Hv. rewrite expect_to_list in Hv.
  assert (E1 : sumn T (fun t => p t * Rmax 0 (- dot N (Rm t) x - pt_c N x)) / alpha <= dot T (fun t => p t / alpha) (pt_xi N x)).
  { unfold dot. rewrite <- sumn_div. apply sumn_le. intros t Ht.
    replace (p t / alpha * pt_xi N x t) with (p t * pt_xi N x t / alpha) by (field; lra).
    unfold Rdiv. apply Rmult_le_compat_r; [apply Rlt_le, Rinv_0_lt_compat; auto|].
    apply Rmult_le_compat_l; [apply Hp; auto|]. apply Rmax_lub; [apply H2|apply H1]; auto. }
  enough (turnover_cost N w0 costs x <= match turnover w0 costs with
     | Some (_, c) => sumn N (fun i => nth i c 0 * (pt_u N T x i + pt_u N T x (N + i)%nat)) | None => 0 end) by lra.
  unfold turnover_cost, turnover in *. destruct w0 as [w0|]; [|lra]. destruct costs as [c|]; [|lra].
  destruct H3 as [H3 H4]. apply sumn_le. intros i Hi. apply Rmult_le_compat_l; [apply (Hc c eq_refl); auto|].
  specialize (H4 i Hi). pose proof (H3 i ltac:(lia)). pose proof (H3 (N + i)%nat ltac:(lia)).
  apply Rabs_le. lra.
Qed.

(** ... and some LP point attains it. *)
Lemma cvar_lp_attained N T Rm p alpha w0 costs G A w v lin eq : 0 < alpha ->
  constrained N G A w ->
  is_cvar (to_list T p) (to_list T (fun t => dot N (Rm t) w)) alpha v ->
  exists x, (forall i, (i < N)%nat -> x i = w i) /\ lp_pt N T Rm (turnover w0 costs) G A x /\
    cp_obj (mkCP (cvar_nvars N T (turnover w0 costs)) (cvar_c N T p alpha (turnover w0 costs)) lin eq []) x
    = v + turnover_cost N w0 costs w.
Proof.
  intros Ha Hw [_ [c Hc]].
  set (tc := turnover w0 costs).
  set (w00 := match tc with Some (a, _) => of_list a | None => zrow end).
  set (x := hcat N w (hcat 1 (cst c) (hcat T (fun t => Rmax 0 (- dot N (Rm t) w - c))
     (hcat N (fun i => Rmax 0 (w i - w00 i)) (fun i => Rmax 0 (w00 i - w i)))))).
  assert (Hx : forall i, (i < N)%nat -> x i = w i) by (intros i Hi; apply hcat_l; auto).
  assert (Hxc : pt_c N x = c) by (unfold pt_c, shift, x; rewrite hcat_r, hcat_l by lia; reflexivity).
  assert (Hxi : forall t, (t < T)%nat -> pt_xi N x t = Rmax 0 (- dot N (Rm t) w - c)).
  { intros t Ht. unfold pt_xi, shift, x. rewrite hcat_r, hcat_r, hcat_l by auto. reflexivity. }
  assert (Hu1 : forall i, (i < N)%nat -> pt_u N T x i = Rmax 0 (w i - w00 i)).
  { intros i Hi. unfold pt_u, pt_xi, shift, x. rewrite !hcat_r, hcat_l by auto. reflexivity. }
  assert (Hu2 : forall i, pt_u N T x (N + i)%nat = Rmax 0 (w00 i - w i)).
  { intros i. unfold pt_u, pt_xi, shift, x. rewrite !hcat_r. reflexivity. }
  assert (Hd : forall g, dot N g x = dot N g w) by (intros g; apply dot_ext_r; auto).
  exists x. split; [exact Hx|]. split.
  - split; [|split; [|split]].
    + intros t Ht. rewrite Hd, Hxc, Hxi by auto. apply Rmax_r.
    + intros t Ht. rewrite Hxi by auto. apply Rmax_l.
    + unfold trade_ok. fold tc. destruct tc as [[a b]|]; [|exact I]. split.
      * intros i Hi. destruct (Nat.lt_ge_cases i N); [rewrite Hu1 by auto; apply Rmax_l|].
        replace i with (N + (i - N))%nat by lia. rewrite Hu2. apply Rmax_l.
      * intros i Hi. rewrite Hu1, Hu2, Hx by auto. subst w00. unfold of_list.
        unfold Rmax. destruct (Rle_dec 0 (w i - nth i a 0)), (Rle_dec 0 (nth i a 0 - w i)); lra.
    + destruct Hw as [G1 A1]. split; intros; rewrite Hd; auto.
  - rewrite cvar_obj_l. rewrite Hxc, Hc. unfold ru. rewrite expect_to_list.
    assert (E1 : dot T (fun t => p t / alpha) (pt_xi N x) = sumn T (fun t => p t * Rmax 0 (- dot N (Rm t) w - c)) / alpha).
    { unfold dot at 1. rewrite <- sumn_div. apply sumn_ext. intros t Ht. rewrite Hxi by auto. fold (dot N (Rm t) w). cbv beta. unfold Rdiv. ring. }
    rewrite E1. f_equal. unfold tc, turnover, turnover_cost in *. destruct w0 as [a|]; [|reflexivity].
    destruct costs as [b|]; [|reflexivity]. apply sumn_ext. intros i Hi. rewrite Hu1, Hu2 by auto. f_equal.
    subst w00 tc. simpl. unfold of_list. unfold Rmax, Rabs.
    destruct (Rle_dec 0 (w i - nth i a 0)), (Rle_dec 0 (nth i a 0 - w i)), (Rcase_abs (w i - nth i a 0)); lra.
Qed.

Lemma prob_vec_T T p : prob_vec T p -> T <> 0%nat.
Proof. intros [_ H] ->. simpl in H. lra. Qed.

Lemma cvar_exists T p y alpha : prob_vec T p -> 0 < alpha <= 1 ->
  exists v, is_cvar (to_list T p) (to_list T y) alpha v.
Proof.
  intros Hp Ha. exists (- cvar_pnl (argsort_by Rleb 0) alpha (to_list T y) (to_list T p)).
  apply cvar_pnl_is_cvar; auto.
  - intros l. apply isort_argsort.
    + intros a b H. apply Rleb_true. exact H.
    + intros a b H. apply Rleb_false in H. lra.
    + intros a b c H1 H2. lra.
  - rewrite to_list_length. apply prob_vec_list. auto.
Qed.

(** Optimality of the returned portfolio. *)
Lemma cvar_solve_l lp N T Rm p alpha w0 costs G A target w cost : exact_cp lp -> prob_vec T p -> 0 < alpha ->
  (forall c, costs = Some c -> forall i, (i < N)%nat -> 0 <= nth i c 0) ->
  cvar_cost N T Rm p alpha w0 costs cost ->
  cvar_solve_target lp N T Rm p alpha (turnover w0 costs) G A target = Ok w ->
  minimises (fun w => constrained N G A w /\ meets N (cvar_mean T p Rm) target w) cost w.
Proof.
  intros Hs Hp Ha Hc Hcost H. unfold cvar_solve_target in H.
  destruct (lp _) as [x|] eqn:E; [|discriminate]. injection H as <-.
  apply Hs in E as [Hf Ho]. apply cvar_feasible_iff in Hf as [Hpt Ht].
  split; [split; [apply Hpt|exact Ht]|]. intros w' [Hw' Ht'].
  pose proof (cvar_lp_lower N T Rm p alpha w0 costs G A
    (with_target N (cvar_mean T p Rm) (cvar_lin N T Rm (turnover w0 costs) G) target)
    (cvar_eq N T (turnover w0 costs) A) x _ Hp Ha Hc Hpt (Hcost x)) as L.
  destruct (cvar_lp_attained N T Rm p alpha w0 costs G A w' _
    (with_target N (cvar_mean T p Rm) (cvar_lin N T Rm (turnover w0 costs) G) target)
    (cvar_eq N T (turnover w0 costs) A) Ha Hw' (Hcost w')) as (y & Hy & Hypt & Hyo).
  specialize (Ho y). change (mkCP _ _ _ _ _) with (cvar_lp N T Rm p alpha (turnover w0 costs) G A target) in L, Hyo.
  assert (Hyf : cp_feasible (cvar_lp N T Rm p alpha (turnover w0 costs) G A target) y).
  { apply cvar_feasible_iff. split; auto. destruct target as [t|]; simpl in *; auto.
    rewrite (dot_ext_r N _ y w'); auto. }
  specialize (Ho Hyf). lra.
Qed.

Lemma cvar_init_inv {X} N tc (k : res X) x : cvar_init N tc k = Ok x ->
  k = Ok x /\ forall a b, tc = Some (a, b) -> length a = N /\ length b = N.
Proof.
  unfold cvar_init. destruct tc as [[a b]|]; intros H.
  - unfold check_shapes in H. apply guard_ok in H as [H1 H]. apply guard_ok in H as [H2 H].
    apply Nat.eqb_eq in H1, H2. split; auto. intros a' b' E. injection E as <- <-. lia.
  - split; auto. intros; discriminate.
Qed.

Lemma cvar_portfolio_l lp N T Rm p alpha w0 costs G A target w cost : exact_cp lp -> prob_vec T p -> 0 < alpha ->
  (forall c, costs = Some c -> forall i, (i < N)%nat -> 0 <= nth i c 0) ->
  cvar_cost N T Rm p alpha w0 costs cost ->
  cvar_portfolio lp N T Rm p alpha w0 costs G A target = Ok w ->
  minimises (fun w => constrained N G A w /\ meets N (cvar_mean T p Rm) target w) cost w.
Proof.
  intros Hs Hp Ha Hc Hcost H. unfold cvar_portfolio in H. apply cvar_init_inv in H as [H _].
  eapply cvar_solve_l; eauto.
Qed.

Lemma cvar_max_lp lp N T Rm p alpha w0 costs G A mr : exact_cp lp -> prob_vec T p -> 0 < alpha <= 1 ->
  max_expected_return lp
         (max_return_lp (cvar_nvars N T (turnover w0 costs)) (hcat N (ropp (cvar_mean T p Rm)) zrow)
            (cvar_lin N T Rm (turnover w0 costs) G) (cvar_eq N T (turnover w0 costs) A)) = Ok mr ->
  is_max (constrained N G A) (dot N (cvar_mean T p Rm)) mr.
Proof.
  intros Hs Hp Ha. set (tc := turnover w0 costs).
  assert (E : forall x, cp_feasible (max_return_lp (cvar_nvars N T tc) (hcat N (ropp (cvar_mean T p Rm)) zrow)
            (cvar_lin N T Rm tc G) (cvar_eq N T tc A)) x <-> lp_pt N T Rm tc G A x).
  { intros x. rewrite <- (cvar_pt_iff N T Rm p alpha). reflexivity. }
  apply (max_lp_l lp _ (1 + (T + tcw tc N))); [auto|apply nvars_eq| |].
  - intros x Hx. apply E in Hx. apply Hx.
  - intros w Hw. destruct (cvar_exists T p (fun t => dot N (Rm t) w) alpha Hp Ha) as [v Hv].
    destruct (cvar_lp_attained N T Rm p alpha w0 costs G A w v [] [] (proj1 Ha) Hw Hv) as (x & Hx & Hpt & _).
    exists x. split; auto. apply E. exact Hpt.
Qed.

Lemma cvar_frontier_l lp N T Rm p alpha w0 costs G A num cols cost : exact_cp lp -> prob_vec T p -> 0 < alpha <= 1 ->
  (forall c, costs = Some c -> forall i, (i < N)%nat -> 0 <= nth i c 0) ->
  cvar_cost N T Rm p alpha w0 costs cost ->
  cvar_frontier lp N T Rm p alpha w0 costs G A num = Ok cols ->
  exists max_ret, is_max (constrained N G A) (dot N (cvar_mean T p Rm)) max_ret /\
    minimises (constrained N G A) cost (nth 0 cols zrow) /\
    ((frontier_collapses num (dot N (cvar_mean T p Rm) (nth 0 cols zrow)) max_ret /\ length cols = 1%nat) \/
     (~ frontier_collapses num (dot N (cvar_mean T p Rm) (nth 0 cols zrow)) max_ret /\
      efficient_frontier (constrained N G A) cost (dot N (cvar_mean T p Rm)) max_ret (Z.to_nat num) cols)).
Proof.
  intros Hs Hp Ha Hc Hcost H. unfold cvar_frontier in H. apply cvar_init_inv in H as [H _].
  apply bind_ok in H as (first & Hf & H). apply bind_ok in H as (mr & Hm & H).
  apply (cvar_max_lp lp N T Rm p alpha) in Hm; auto. exists mr. split; auto.
  assert (Hspec : forall t w, cvar_solve_target lp N T Rm p alpha (turnover w0 costs) G A t = Ok w ->
    minimises (fun w => constrained N G A w /\ meets N (cvar_mean T p Rm) t w) cost w).
  { intros t w E. eapply cvar_solve_l; eauto. lra. }
  assert (Hfirst : minimises (constrained N G A) cost first).
  { destruct (Hspec None first Hf) as [[H1 _] H2]. split; auto. intros w' Hw'. apply H2. split; simpl; auto. }
  destruct (frontier_l N first _ num _ mr cols _ _ Hfirst (fun t w => Hspec (Some t) w) Hm H)
    as [[Hcl ->]|(Hcl & E0 & He)].
  - simpl. auto.
  - rewrite E0. auto.
Qed.

(** Midpoint convexity of CVaR plus turnover cost. *)
Lemma ru_midpoint T p y z m alpha c d : (forall t, (t < T)%nat -> 0 <= p t) -> 0 < alpha ->
  (forall t, (t < T)%nat -> m t = / 2 * y t + / 2 * z t) ->
  2 * ru (to_list T p) (to_list T m) alpha (/ 2 * c + / 2 * d) <=
  ru (to_list T p) (to_list T y) alpha c + ru (to_list T p) (to_list T z) alpha d.
Proof.
  intros Hp Ha Hm. unfold ru. rewrite !expect_to_list.
  enough (2 * (sumn T (fun t => p t * Rmax 0 (- m t - (/ 2 * c + / 2 * d))) / alpha) <=
    sumn T (fun t => p t * Rmax 0 (- y t - c)) / alpha + sumn T (fun t => p t * Rmax 0 (- z t - d)) / alpha) by lra.
  rewrite <- Rdiv_plus_distr, <- sumn_plus.
  replace (2 * (sumn T (fun t => p t * Rmax 0 (- m t - (/ 2 * c + / 2 * d))) / alpha))
    with (sumn T (fun t => 2 * (p t * Rmax 0 (- m t - (/ 2 * c + / 2 * d)))) / alpha) by (rewrite sumn_scale; field; lra).
  unfold Rdiv. apply Rmult_le_compat_r; [apply Rlt_le, Rinv_0_lt_compat; auto|].
  apply sumn_le. intros t Ht. rewrite (Hm t Ht). specialize (Hp t Ht).
  replace (2 * (p t * Rmax 0 (- (/ 2 * y t + / 2 * z t) - (/ 2 * c + / 2 * d))))
    with (p t * (2 * Rmax 0 (- (/ 2 * y t + / 2 * z t) - (/ 2 * c + / 2 * d)))) by ring.
  rewrite <- (Rmult_plus_distr_l (p t) (Rmax 0 (- y t - c))). apply Rmult_le_compat_l; auto.
  unfold Rmax. repeat (match goal with |- context [Rle_dec ?a ?b] => destruct (Rle_dec a b) end); lra.
Qed.

Lemma cvar_cost_midpoint N T Rm p alpha w0 costs cost u v : prob_vec T p -> 0 < alpha ->
  (forall c, costs = Some c -> forall i, (i < N)%nat -> 0 <= nth i c 0) ->
  cvar_cost N T Rm p alpha w0 costs cost -> 2 * cost (midpoint u v) <= cost u + cost v.
Proof.
  intros [Hp _] Ha Hc Hcost.
  destruct (Hcost u) as [_ [cu Eu]]. destruct (Hcost v) as [_ [cv Ev]]. destruct (Hcost (midpoint u v)) as [Hm _].
  specialize (Hm (/ 2 * cu + / 2 * cv)).
  pose proof (ru_midpoint T p (fun t => dot N (Rm t) u) (fun t => dot N (Rm t) v) (fun t => dot N (Rm t) (midpoint u v))
    alpha cu cv Hp Ha ltac:(intros; apply dot_midpoint)) as Hr.
  enough (2 * turnover_cost N w0 costs (midpoint u v) <= turnover_cost N w0 costs u + turnover_cost N w0 costs v) by lra.
  unfold turnover_cost. destruct w0 as [w0|]; [|lra]. destruct costs as [c|]; [|lra].
  rewrite <- sumn_scale, <- sumn_plus. apply sumn_le. intros i Hi.
  specialize (Hc c eq_refl i Hi). unfold midpoint.
  replace (2 * (nth i c 0 * Rabs (/ 2 * u i + / 2 * v i - nth i w0 0)))
    with (nth i c 0 * (2 * Rabs (/ 2 * u i + / 2 * v i - nth i w0 0))) by ring.
  rewrite <- (Rmult_plus_distr_l (nth i c 0) (Rabs (u i - nth i w0 0))). apply Rmult_le_compat_l; auto.
  unfold Rabs. repeat (match goal with |- context [Rcase_abs ?a] => destruct (Rcase_abs a) end); lra.
Qed.

(** Tail levels outside (0,1] leave the LP unbounded: nothing is ever returned. *)
Definition bump (N T : nat) (a b : R) (x : vec) : vec :=
  hcat N x (hcat 1 (cst (pt_c N x + a)) (hcat T (fun t => pt_xi N x t + b) (pt_u N T x))).

Lemma bump_parts N T a b x :
  (forall i, (i < N)%nat -> bump N T a b x i = x i) /\ pt_c N (bump N T a b x) = pt_c N x + a /\
  (forall t, (t < T)%nat -> pt_xi N (bump N T a b x) t = pt_xi N x t + b) /\
  (forall i, pt_u N T (bump N T a b x) i = pt_u N T x i).
Proof.
  repeat split.
  - intros i Hi. apply hcat_l. auto.
  - unfold pt_c at 1, shift, bump. rewrite hcat_r, hcat_l by lia. reflexivity.
  - intros t Ht. unfold pt_xi at 1, shift, bump. rewrite !hcat_r, hcat_l by auto. reflexivity.
  - intros i. unfold pt_u at 1, shift, bump, pt_xi at 1, shift. rewrite !hcat_r. reflexivity.
Qed.

Lemma bump_feasible N T Rm p alpha tc G A target a b x : 0 <= a + b -> 0 <= b ->
  cp_feasible (cvar_lp N T Rm p alpha tc G A target) x ->
  cp_feasible (cvar_lp N T Rm p alpha tc G A target) (bump N T a b x).
Proof.
  intros Hab Hb H. apply cvar_feasible_iff in H as [(H1 & H2 & H3 & H4) H5]. apply cvar_feasible_iff.
  destruct (bump_parts N T a b x) as (B1 & B2 & B3 & B4).
  assert (Hd : forall g, dot N g (bump N T a b x) = dot N g x) by (intros g; apply dot_ext_r; auto).
  repeat split.
  - intros t Ht. rewrite Hd, B2, B3 by auto. specialize (H1 t Ht). lra.
  - intros t Ht. rewrite B3 by auto. specialize (H2 t Ht). lra.
  - unfold trade_ok in *. destruct tc as [[w0 c]|]; [|exact I]. destruct H3 as [H3 H6]. split.
    + intros i Hi. rewrite B4. auto.
    + intros i Hi. rewrite !B4, B1 by auto. auto.
  - intros g h Hi. rewrite Hd. apply H4. auto.
  - intros g h Hi. rewrite Hd. apply H4. auto.
  - destruct target; simpl in *; auto. rewrite Hd. auto.
Qed.

Lemma bump_obj N T p alpha tc lin eq a b x : sumn T p = 1 ->
  cp_obj (mkCP (cvar_nvars N T tc) (cvar_c N T p alpha tc) lin eq []) (bump N T a b x) =
  cp_obj (mkCP (cvar_nvars N T tc) (cvar_c N T p alpha tc) lin eq []) x + a + b / alpha.
Proof.
  intros Hp. rewrite !cvar_obj_l. destruct (bump_parts N T a b x) as (B1 & B2 & B3 & B4). rewrite B2.
  assert (E : dot T (fun t => p t / alpha) (pt_xi N (bump N T a b x)) = dot T (fun t => p t / alpha) (pt_xi N x) + b / alpha).
  { rewrite (dot_ext_r T _ _ (fun t => pt_xi N x t + b)) by auto. rewrite dot_plus_r. f_equal.
    unfold dot. rewrite sumn_scale_r, sumn_div, Hp. unfold Rdiv. ring. }
  rewrite E. destruct tc as [[w0 c]|]; [|lra].
  rewrite (sumn_ext N (fun i => nth i c 0 * (pt_u N T (bump N T a b x) i + pt_u N T (bump N T a b x) (N + i)%nat))
    (fun i => nth i c 0 * (pt_u N T x i + pt_u N T x (N + i)%nat))) by (intros; rewrite !B4; reflexivity).
  lra.
Qed.

Lemma cvar_bad_alpha lp N T Rm p alpha tc G A target : exact_cp lp -> sumn T p = 1 -> alpha < 0 \/ 1 < alpha ->
  cvar_solve_target lp N T Rm p alpha tc G A target = Err RuntimeError.
Proof.
  intros Hs Hp Ha. unfold cvar_solve_target. destruct (lp _) as [x|] eqn:E; [|reflexivity]. exfalso.
  apply Hs in E as [Hf Ho]. destruct Ha as [Ha|Ha].
  - specialize (Ho _ (bump_feasible N T Rm p alpha tc G A target 0 1 x ltac:(lra) ltac:(lra) Hf)).
    unfold cvar_lp in Ho. rewrite bump_obj in Ho by auto.
    assert (1 / alpha < 0) by (unfold Rdiv; rewrite Rmult_1_l; apply Rinv_lt_0_compat; auto). lra.
  - specialize (Ho _ (bump_feasible N T Rm p alpha tc G A target (-1) 1 x ltac:(lra) ltac:(lra) Hf)).
    unfold cvar_lp in Ho. rewrite bump_obj in Ho by auto.
    assert (1 / alpha < 1) by (apply Rmult_lt_reg_r with alpha; [lra|]; unfold Rdiv; rewrite Rmult_assoc, Rinv_l; lra). lra.
Qed.
