From Verif Require Import RBase SortLib QpBase RiskModel RiskSpec RiskProofs OptModel OptSpec.
Open Scope R_scope.

(** * Padding *)
Definition shift (n : nat) (x : vec) : vec := fun i => x (n + i)%nat.

Lemma sumn_app n m f : sumn (n + m) f = sumn n f + sumn m (fun i => f (n + i)%nat).
Proof.
  induction m as [|m IH]; [rewrite Nat.add_0_r; simpl; lra|].
  rewrite Nat.add_succ_r. simpl. rewrite IH. lra.
Qed.

Lemma hcat_l n u v i : (i < n)%nat -> hcat n u v i = u i.
Proof. intros H. unfold hcat. apply Nat.ltb_lt in H. rewrite H. reflexivity. Qed.
Lemma hcat_r n u v i : hcat n u v (n + i)%nat = v i.
Proof.
  unfold hcat. destruct (Nat.ltb_spec (n + i) n); [lia|]. f_equal. lia.
Qed.

Lemma dot_hcat n m u v x : dot (n + m) (hcat n u v) x = dot n u x + dot m v (shift n x).
Proof.
  unfold dot. rewrite sumn_app. f_equal; apply sumn_ext; intros i Hi.
  - rewrite hcat_l by auto. reflexivity.
  - rewrite hcat_r. reflexivity.
Qed.
Lemma dot_hcat0 n u x : dot n (hcat n u zrow) x = dot n u x.
Proof. apply dot_ext; auto. intros. apply hcat_l; auto. Qed.
Lemma dot_zrow n x : dot n zrow x = 0.
Proof. apply sumn_0. intros. unfold zrow. lra. Qed.
Lemma dot_ropp n u x : dot n (ropp u) x = - dot n u x.
Proof. unfold dot, ropp. rewrite <- sumn_opp. apply sumn_ext. intros; ring. Qed.
Lemma dot_eye n i x : (i < n)%nat -> dot n (eye_row i) x = x i.
Proof. intros. apply dot_delta_l. auto. Qed.
Lemma dot_cst1 k x : dot 1 (cst k) x = k * x 0%nat.
Proof. unfold dot, cst. simpl. lra. Qed.
Lemma dot_rplus n u v x : dot n (rplus u v) x = dot n u x + dot n v x.
Proof. apply dot_plus_l. Qed.
Lemma dot_hcat_pad n m u x : dot (n + m) (hcat n u zrow) x = dot n u x.
Proof. rewrite dot_hcat, dot_zrow. lra. Qed.

(** * Mean-variance *)
Lemma dot_sum_pt n f g : sumn n (fun i => f i * g i) = dot n f g.
Proof. reflexivity. Qed.

Lemma quad_diag n (lam : vec) w :
  quad n (fun i j => if (i =? j)%nat then lam i else 0) w = sumn n (fun i => lam i * w i * w i).
Proof.
  apply sumn_ext. intros i Hi.
  transitivity (sumn n (fun j => delta i j * (lam i * w i * w j))).
  - apply sumn_ext. intros j Hj. unfold delta. destruct (i =? j)%nat; ring.
  - rewrite sumn_delta_r by auto. reflexivity.
Qed.

(** The quadratic programme's objective, up to a constant. *)
Lemma mv_objective n cov w0 lam P q : (forall l, lam = Some l -> w0 <> None -> length l = n) ->
  mv_terms n cov w0 lam = Ok (P, q) ->
  exists k, forall w, quad n P w / 2 + dot n q w = mv_cost n cov w0 lam w + k.
Proof.
  intros Hl H. unfold mv_terms in H. unfold mv_cost, impact.
  assert (base : mv_terms n cov None None = Ok (P, q) ->
    exists k, forall w, quad n P w / 2 + dot n q w = quad n cov w + 0 + k).
  { intros E. injection E as <- <-. exists 0. intros w. rewrite quad_scale, dot_zrow. lra. }
  destruct w0 as [w0|]; [|destruct lam; apply base; exact H].
  destruct lam as [lam|]; [|apply base; exact H].
  specialize (Hl lam eq_refl ltac:(discriminate)).
  unfold quadratic_turnover, check_shapes in H. apply guard_ok in H as [He H].
  rewrite Hl, Nat.eqb_refl in H. injection H as <- <-.
  exists (- sumn n (fun i => of_list lam i * of_list w0 i * of_list w0 i)). intros w.
  rewrite (quad_plus n (fun i j => 2 * cov i j) (fun i j => 2 * (if (i =? j)%nat then of_list lam i else 0))).
  rewrite !quad_scale, quad_diag.
  unfold dot, zrow.
  rewrite Rdiv_plus_distr.
  replace (2 * quad n cov w / 2) with (quad n cov w) by field.
  replace (2 * sumn n (fun i => of_list lam i * w i * w i) / 2) with (sumn n (fun i => of_list lam i * w i * w i)) by field.
  enough (sumn n (fun i => of_list lam i * w i * w i) + sumn n (fun i => (0 - 2 * (of_list lam i * of_list w0 i)) * w i) =
          sumn n (fun i => nth i lam 0 * (w i - nth i w0 0) ^ 2) - sumn n (fun i => of_list lam i * of_list w0 i * of_list w0 i)) by lra.
  rewrite <- sumn_plus, <- sumn_minus. apply sumn_ext. intros i _. unfold of_list. ring.
Qed.

Lemma mv_feasible_iff n mean P q G A target w :
  qp_feasible (mv_qp n mean P q G A target) w <-> constrained n G A w /\ meets n mean target w.
Proof.
  unfold qp_feasible, constrained, mv_qp; simpl. destruct target as [t|]; simpl.
  - assert (E : dot n (hcat n (ropp mean) zrow) w = - dot n mean w) by (rewrite dot_hcat0, dot_ropp; reflexivity).
    split.
    + intros [H1 H2]. repeat split; auto.
      * intros g h Hi. apply H1, in_or_app. auto.
      * specialize (H1 (hcat n (ropp mean) zrow) (- t)). rewrite E in H1.
        assert (- dot n mean w <= - t) by (apply H1, in_or_app; simpl; auto). lra.
    + intros [[H1 H2] Ht]. split; auto. intros g h Hi. apply in_app_or in Hi as [Hi|[Hi|[]]]; auto.
      injection Hi as <- <-. rewrite E. lra.
  - tauto.
Qed.

Lemma quad_ridge n r P w : quad n (add_ridge r P) w = quad n P w + r * dot n w w.
Proof.
  unfold add_ridge. rewrite (quad_plus n P (fun i j => (if (i =? j)%nat then 1 else 0) * r)). f_equal.
  transitivity (quad n (fun i j => r * delta i j) w).
  - apply quad_ext; auto. intros. unfold delta. destruct (i =? j)%nat; lra.
  - rewrite quad_scale. f_equal. unfold quad, dot. apply sumn_ext. intros i Hi.
    rewrite <- (sumn_delta_r n i (fun j => w i * w j) Hi). apply sumn_ext. intros; ring.
Qed.

Lemma mv_solve_spec solve n mean P q G A target w : exact_qp solve ->
  mv_solve_target solve n mean P q G A target = Ok w ->
  exists r, (r = 0 \/ r = mv_ridge n P) /\
    (solve (mv_qp n mean P q G A target) <> None -> r = 0) /\
    minimises (fun w => constrained n G A w /\ meets n mean target w)
      (fun w => quad n P w / 2 + dot n q w + r / 2 * dot n w w) w.
Proof.
  intros Hs H. unfold mv_solve_target in H.
  destruct (solve (mv_qp n mean P q G A target)) as [x|] eqn:E1.
  - injection H as <-. apply Hs in E1 as [Hf Ho]. exists 0. split; [auto|]. split; [auto|]. split.
    + apply mv_feasible_iff in Hf. exact Hf.
    + intros w' Hw'. apply (mv_feasible_iff n mean P q) in Hw'. specialize (Ho w' Hw').
      unfold qp_obj in Ho; simpl in Ho. lra.
  - destruct (solve (mv_qp n mean (add_ridge (mv_ridge n P) P) q G A target)) as [x|] eqn:E2; [|discriminate].
    injection H as <-. apply Hs in E2 as [Hf Ho]. exists (mv_ridge n P). split; [auto|]. split; [congruence|]. split.
    + apply mv_feasible_iff in Hf. exact Hf.
    + intros w' Hw'. apply (mv_feasible_iff n mean (add_ridge (mv_ridge n P) P) q) in Hw'.
      specialize (Ho w' Hw'). unfold qp_obj in Ho; simpl in Ho. rewrite !quad_ridge in Ho. lra.
Qed.

Lemma mv_portfolio_l solve n mean cov G A w0 lam target w : exact_qp solve ->
  (forall l, lam = Some l -> w0 <> None -> length l = n) ->
  mv_portfolio solve n mean cov G A w0 lam target = Ok w ->
  exists r, 0 <= r /\ minimises (fun w => constrained n G A w /\ meets n mean target w)
      (fun w => mv_cost n cov w0 lam w + r / 2 * dot n w w) w /\
    (forall P q, mv_terms n cov w0 lam = Ok (P, q) -> solve (mv_qp n mean P q G A target) <> None -> r = 0).
Proof.
  intros Hs Hl H. unfold mv_portfolio in H. apply bind_ok in H as ([P q] & Ht & H).
  destruct (mv_objective n cov w0 lam P q Hl Ht) as [k Hk].
  destruct (mv_solve_spec solve n mean P q G A target w Hs H) as (r & Hr & Hr0 & Hf & Ho).
  exists r. split; [|split; [split; [exact Hf|]|]].
  - destruct Hr as [->| ->]; [lra|]. unfold mv_ridge. eapply Rle_trans; [|apply Rmax_l]. lra.
  - intros w' Hw'. specialize (Ho w' Hw'). rewrite !Hk in Ho. lra.
  - intros P' q' E. rewrite Ht in E. injection E as <- <-. exact Hr0.
Qed.

(** * Frontiers *)
Lemma nth_mapM {A B} (f : A -> res B) l out d d' k : mapM f l = Ok out -> (k < length l)%nat ->
  f (nth k l d) = Ok (nth k out d').
Proof.
  intros H. apply mapM_ok_forall2 in H. revert k. induction H as [|x y l out Hxy H IH]; simpl; intros k Hk; [lia|].
  destruct k; [exact Hxy|]. apply IH. lia.
Qed.
Lemma mapM_length {A B} (f : A -> res B) l out : mapM f l = Ok out -> length out = length l.
Proof. intros H. apply mapM_ok_forall2 in H. induction H; simpl; auto. Qed.

Lemma nth_map_seq {A} (f : nat -> A) s m k d : (k < m)%nat -> nth k (map f (seq s m)) d = f (s + k)%nat.
Proof.
  intros H. rewrite (nth_indep _ d (f 0%nat)) by (rewrite map_length, seq_length; auto).
  rewrite map_nth, seq_nth by auto. reflexivity.
Qed.


Lemma frontier_l n first fn num mean max_ret cols F cost :
  minimises F cost first ->
  (forall t w, fn t = Ok w -> minimises (fun w => F w /\ t <= dot n mean w) cost w) ->
  is_max F (dot n mean) max_ret ->
  frontier n first fn num mean max_ret = Ok cols ->
  (frontier_collapses num (dot n mean first) max_ret /\ cols = [first]) \/
  (~ frontier_collapses num (dot n mean first) max_ret /\ nth 0 cols zrow = first /\
   efficient_frontier F cost (dot n mean) max_ret (Z.to_nat num) cols).
Proof.
  intros Hf Hfn Hm H. unfold frontier in H. unfold frontier_collapses.
  destruct (Z.ltb_spec num 2) as [Hlt|Hge]; simpl in H.
  { injection H as <-. left. split; auto. }
  unfold risclose in H. destruct (Rleb_spec (Rabs (dot n mean first - max_ret)) (1 / 100000000 + 1 / 100000 * Rabs max_ret)) as [Hc|Hc]; simpl in H.
  { injection H as <-. left. split; auto. }
  right. split; [intros [?|?]; [lia|auto]|].
  apply bind_ok in H as (out & Hout & H). injection H as <-.
  set (num' := Z.to_nat num) in *.
  set (lo := dot n mean first) in *.
  assert (Hn : (2 <= num')%nat) by (unfold num'; lia).
  assert (HZ : IZR num = INR num') by (rewrite INR_IZR_INZ; unfold num'; rewrite Z2Nat.id by lia; reflexivity).
  assert (Hlen : length out = (num' - 1)%nat) by (rewrite (mapM_length _ _ _ Hout), map_length, seq_length; reflexivity).
  assert (Hlo : lo <= max_ret) by (apply Hm; apply Hf).
  assert (HN1 : 0 < INR num' - 1).
  { assert (INR 1 < INR num') by (apply lt_INR; lia). simpl in *; lra. }
  assert (Hcol : forall k, (1 <= k < num')%nat ->
    minimises (fun w => F w /\ target_k lo max_ret num' k <= dot n mean w) cost (nth k (first :: out) zrow)).
  { intros k Hk. destruct k as [|k]; [lia|]. simpl.
    apply (Hfn (target_k lo max_ret num' (S k))).
    pose proof (nth_mapM _ _ _ 0 zrow k Hout) as E. rewrite map_length, seq_length in E.
    rewrite nth_map_seq in E by lia. unfold target_k. unfold grid_point in E. rewrite HZ in E.
    simpl plus in E. apply E. lia. }
  assert (Hcol0 : minimises (fun w => F w /\ target_k lo max_ret num' 0 <= dot n mean w) cost first).
  { destruct Hf as [Hf1 Hf2]. split.
    - split; auto. unfold target_k, lo. simpl. lra.
    - intros w' [Hw' _]. auto. }
  assert (Hall : forall k, (k < num')%nat ->
    minimises (fun w => F w /\ target_k lo max_ret num' k <= dot n mean w) cost (nth k (first :: out) zrow)).
  { intros [|k] Hk; [exact Hcol0|]. apply Hcol. lia. }
  assert (Hmono_t : forall j k, (j <= k)%nat -> target_k lo max_ret num' j <= target_k lo max_ret num' k).
  { intros j k Hjk. unfold target_k. apply Rplus_le_compat_l. apply Rmult_le_compat_r.
    - unfold Rdiv. apply Rmult_le_pos; [lra|]. apply Rlt_le, Rinv_0_lt_compat. lra.
    - apply le_INR. auto. }
  split; [reflexivity|].
  constructor.
  - simpl. lia.
  - exact Hf.
  - exact Hall.
  - intros j k Hjk. destruct (Hall j ltac:(lia)) as [_ Hj]. destruct (Hall k ltac:(lia)) as [[Hk1 Hk2] _].
    apply Hj. split; auto. eapply Rle_trans; [|exact Hk2]. apply Hmono_t. lia.
  - destruct (Hall (num' - 1)%nat ltac:(lia)) as [[H1 H2] _].
    apply Rle_antisym; [apply Hm; auto|].
    eapply Rle_trans; [|exact H2]. unfold target_k. rewrite minus_INR by lia. simpl INR.
    right. field. lra.
Qed.

Definition midpoint (u v : vec) : vec := fun i => / 2 * u i + / 2 * v i.

Lemma dot_midpoint n m u v : dot n m (midpoint u v) = / 2 * dot n m u + / 2 * dot n m v.
Proof. unfold midpoint. rewrite dot_plus_r, !dot_scale_r. reflexivity. Qed.

(** Convexity of the frontier from midpoint convexity of cost and feasible set. *)
Lemma frontier_convex (F : vec -> Prop) cost n mean max_ret num cols :
  (forall u v, F u -> F v -> F (midpoint u v)) ->
  (forall u v, F u -> F v -> 2 * cost (midpoint u v) <= cost u + cost v) ->
  (2 <= num)%nat ->
  efficient_frontier F cost (dot n mean) max_ret num cols -> convex_frontier cost cols.
Proof.
  intros HF Hc Hn [Hl _ Hcols _ _] k Hk. rewrite Hl in Hk.
  destruct (Hcols k ltac:(lia)) as [[A1 A2] _].
  destruct (Hcols (S k) ltac:(lia)) as [_ B].
  destruct (Hcols (S (S k)) ltac:(lia)) as [[C1 C2] _].
  eapply Rle_trans; [|apply Hc; auto]. apply Rmult_le_compat_l; [lra|]. apply B. split; [auto|].
  rewrite dot_midpoint. unfold target_k in *. rewrite !S_INR in *.
  set (d := (max_ret - dot n mean (nth 0 cols zrow)) / (INR num - 1)) in *. lra.
Qed.

Lemma constrained_midpoint n G A u v : constrained n G A u -> constrained n G A v -> constrained n G A (midpoint u v).
Proof.
  intros [H1 H2] [H3 H4]. split; intros; rewrite dot_midpoint.
  - specialize (H1 _ _ H). specialize (H3 _ _ H). lra.
  - rewrite (H2 _ _ H), (H4 _ _ H). lra.
Qed.

Lemma quad_midpoint n P u v : psd n P -> 2 * quad n P (midpoint u v) <= quad n P u + quad n P v.
Proof.
  intros Hp. specialize (Hp (fun i => u i - v i)).
  enough (quad n P u + quad n P v - 2 * quad n P (midpoint u v) = / 2 * quad n P (fun i => u i - v i)) by lra.
  unfold quad. rewrite <- !sumn_scale, <- sumn_plus, <- sumn_minus. apply sumn_ext. intros i Hi.
  rewrite <- !sumn_scale, <- sumn_plus, <- sumn_minus. apply sumn_ext. intros j Hj. unfold midpoint. field.
Qed.

Lemma impact_midpoint n w0 lam u v : (forall l x, lam = Some l -> In x l -> 0 <= x) ->
  2 * impact n w0 lam (midpoint u v) <= impact n w0 lam u + impact n w0 lam v.
Proof.
  intros H. unfold impact. destruct w0 as [w0|]; [|lra]. destruct lam as [lam|]; [|lra].
  rewrite <- sumn_scale, <- sumn_plus. apply sumn_le. intros i Hi.
  assert (0 <= nth i lam 0).
  { destruct (nth_in_or_default i lam 0) as [Hin| ->]; [apply (H lam); auto|lra]. }
  unfold midpoint.
  assert (0 <= nth i lam 0 * ((u i - v i) ^ 2)) by (apply Rmult_le_pos; auto; apply pow2_ge_0).
  nra.
Qed.

Lemma mv_cost_midpoint n cov w0 lam u v : psd n cov -> (forall l x, lam = Some l -> In x l -> 0 <= x) ->
  2 * mv_cost n cov w0 lam (midpoint u v) <= mv_cost n cov w0 lam u + mv_cost n cov w0 lam v.
Proof.
  intros Hp Hl. unfold mv_cost. pose proof (quad_midpoint n cov u v Hp). pose proof (impact_midpoint n w0 lam u v Hl). lra.
Qed.

(** Maximal return by linear programming. *)
Lemma max_lp_l lp N m n mean G A max_ret (F : vec -> Prop) : exact_cp lp -> (N = n + m)%nat ->
  (forall x, cp_feasible (max_return_lp N (hcat n (ropp mean) zrow) G A) x -> F x) ->
  (forall w, F w -> exists x, (forall i, (i < n)%nat -> x i = w i) /\ cp_feasible (max_return_lp N (hcat n (ropp mean) zrow) G A) x) ->
  max_expected_return lp (max_return_lp N (hcat n (ropp mean) zrow) G A) = Ok max_ret ->
  is_max F (dot n mean) max_ret.
Proof.
  intros Hs -> H1 H2 H. unfold max_expected_return in H.
  destruct (lp (max_return_lp (n + m) (hcat n (ropp mean) zrow) G A)) as [x|] eqn:E; [|discriminate].
  injection H as <-. apply Hs in E as [Hf Ho].
  assert (Eo : forall y, cp_obj (max_return_lp (n + m) (hcat n (ropp mean) zrow) G A) y = - dot n mean y).
  { intros y. unfold cp_obj; simpl. rewrite dot_hcat_pad, dot_ropp. reflexivity. }
  rewrite Eo. split.
  - exists x. split; auto. lra.
  - intros w Hw. destruct (H2 w Hw) as (y & Hy & Hyf). specialize (Ho y Hyf). rewrite !Eo in Ho.
    rewrite (dot_ext n mean w mean y) by (intros; auto; symmetry; auto). lra.
Qed.

Lemma mv_max_lp lp n mean G A max_ret : exact_cp lp ->
  max_expected_return lp (max_return_lp n (hcat n (ropp mean) zrow) (opt_rows G) (opt_rows A)) = Ok max_ret ->
  is_max (constrained n G A) (dot n mean) max_ret.
Proof.
  intros Hs. apply (max_lp_l lp n 0); auto.
  - intros x (H1 & H2 & _). split; auto.
  - intros w [H1 H2]. exists w. repeat split; auto. simpl. tauto.
Qed.

Lemma qp_of_minimiser n mean cov w0 lam P q G A target y : (forall l, lam = Some l -> w0 <> None -> length l = n) ->
  mv_terms n cov w0 lam = Ok (P, q) ->
  minimises (fun y => constrained n G A y /\ meets n mean target y) (mv_cost n cov w0 lam) y ->
  qp_optimum (mv_qp n mean P q G A target) y.
Proof.
  intros Hl Ht [H1 H2]. destruct (mv_objective n cov w0 lam P q Hl Ht) as [k Hk]. split; [apply mv_feasible_iff; exact H1|].
  intros z Hz. apply mv_feasible_iff in Hz. specialize (H2 z Hz). unfold qp_obj. simpl. pose proof (Hk y). pose proof (Hk z). lra.
Qed.

Lemma mv_frontier_l solve lp n mean cov G A w0 lam num cols : exact_qp solve -> exact_cp lp ->
  (forall l, lam = Some l -> w0 <> None -> length l = n) ->
  complete_qp solve -> attained (constrained n G A) n mean (mv_cost n cov w0 lam) ->
  mv_frontier solve lp n mean cov G A w0 lam num = Ok cols ->
  exists max_ret, is_max (constrained n G A) (dot n mean) max_ret /\
    minimises (constrained n G A) (mv_cost n cov w0 lam) (nth 0 cols zrow) /\
    ((frontier_collapses num (dot n mean (nth 0 cols zrow)) max_ret /\ length cols = 1%nat) \/
     (~ frontier_collapses num (dot n mean (nth 0 cols zrow)) max_ret /\
      efficient_frontier (constrained n G A) (mv_cost n cov w0 lam) (dot n mean) max_ret (Z.to_nat num) cols)).
Proof.
  intros Hq Hc Hl Hcq Hat H. unfold mv_frontier in H.
  apply bind_ok in H as ([P q] & Ht & H). apply bind_ok in H as (first & Hf & H).
  apply bind_ok in H as (mr & Hm & H).
  destruct (mv_objective n cov w0 lam P q Hl Ht) as [k Hk].
  assert (Hspec : forall t w, mv_solve_target solve n mean P q G A t = Ok w ->
    minimises (fun w => constrained n G A w /\ meets n mean t w) (mv_cost n cov w0 lam) w).
  { intros t w E. destruct (mv_solve_spec solve n mean P q G A t w Hq E) as (r & _ & Hr & HF & Ho).
    assert (Hsome : solve (mv_qp n mean P q G A t) <> None).
    { destruct (Hat t (ex_intro _ w HF)) as [y Hy]. exact (Hcq _ y (qp_of_minimiser n mean cov w0 lam P q G A t y Hl Ht Hy)). }
    rewrite (Hr Hsome) in Ho. split; auto. intros w' Hw'. specialize (Ho w' Hw'). rewrite !Hk in Ho. lra. }
  apply mv_max_lp in Hm; auto. exists mr. split; auto.
  assert (Hfirst : minimises (constrained n G A) (mv_cost n cov w0 lam) first).
  { destruct (Hspec None first Hf) as [[Ha _] Hb]. split; auto. intros w' Hw'. apply Hb. split; simpl; auto. }
  destruct (frontier_l n first _ num mean mr cols _ _ Hfirst (fun t w => Hspec (Some t) w) Hm H)
    as [[Hcl ->]|(Hcl & E0 & He)].
  - simpl. auto.
  - rewrite E0. auto.
Qed.

(** A complete solver leaves nothing unsolved. *)
Lemma mapM_total {A B} (f : A -> res B) l : (forall a, In a l -> exists b, f a = Ok b) -> exists bs, mapM f l = Ok bs.
Proof.
  induction l as [|a l IH]; intros H; [exists []; reflexivity|]. destruct (H a (or_introl eq_refl)) as [b Hb].
  destruct IH as [bs Hbs]; [intros x Hx; apply H; right; exact Hx|]. exists (b :: bs). simpl. rewrite Hb. cbn [bind]. rewrite Hbs. reflexivity.
Qed.

Lemma mv_solve_total solve n mean cov G A w0 lam P q t : complete_qp solve ->
  (forall l, lam = Some l -> w0 <> None -> length l = n) -> mv_terms n cov w0 lam = Ok (P, q) ->
  attained (constrained n G A) n mean (mv_cost n cov w0 lam) -> (exists y, constrained n G A y /\ meets n mean t y) ->
  exists x, mv_solve_target solve n mean P q G A t = Ok x.
Proof.
  intros Hc Hl Ht Hat Hy. destruct (Hat t Hy) as [y Hm]. unfold mv_solve_target.
  destruct (solve (mv_qp n mean P q G A t)) as [x|] eqn:E; [eauto|]. exfalso.
  exact (Hc _ y (qp_of_minimiser n mean cov w0 lam P q G A t y Hl Ht Hm) E).
Qed.

Lemma mv_frontier_total solve lp n mean cov G A w0 lam num P q m : exact_qp solve -> exact_cp lp -> complete_qp solve -> complete_cp lp ->
  (forall l, lam = Some l -> w0 <> None -> length l = n) -> mv_terms n cov w0 lam = Ok (P, q) ->
  attained (constrained n G A) n mean (mv_cost n cov w0 lam) -> is_max (constrained n G A) (dot n mean) m ->
  exists cols, mv_frontier solve lp n mean cov G A w0 lam num = Ok cols.
Proof.
  intros Hq Hlp Hcq Hcp Hl Ht Hat [(y & Hy & Ey) Hm]. unfold mv_frontier. rewrite Ht. cbn [bind].
  destruct (mv_solve_total solve n mean cov G A w0 lam P q None Hcq Hl Ht Hat (ex_intro _ y (conj Hy I))) as [first Hf]. rewrite Hf. cbn [bind].
  set (p := max_return_lp n (hcat n (ropp mean) zrow) (opt_rows G) (opt_rows A)).
  assert (Eo : forall z, cp_obj p z = - dot n mean z).
  { intros z. unfold cp_obj, p; simpl. pose proof (dot_hcat_pad n 0 (ropp mean) z) as K. rewrite Nat.add_0_r in K. rewrite K, dot_ropp. reflexivity. }
  assert (Ho : cp_optimum p y).
  { split; [repeat split; [apply Hy|apply Hy|simpl; tauto]|]. intros z (Z1 & Z2 & _). rewrite !Eo. pose proof (Hm z (conj Z1 Z2)). lra. }
  unfold max_expected_return. destruct (lp p) as [x|] eqn:El; [|exfalso; exact (Hcp p y Ho El)]. cbn [bind].
  assert (Ex : - cp_obj p x = m).
  { destruct (Hlp p x El) as [(X1 & X2 & _) Hx]. specialize (Hx y (proj1 Ho)). rewrite !Eo in *. pose proof (Hm x (conj X1 X2)). lra. }
  rewrite Ex. unfold frontier. destruct ((num <? 2)%Z || risclose (dot n mean first) m) eqn:En; [eauto|]. apply Bool.orb_false_iff in En as [En _]. apply Z.ltb_ge in En.
  match goal with |- context [mapM ?f ?l] => destruct (mapM_total f l) as [bs Hb] end.
  - intros t Hin. apply in_map_iff in Hin as (k & <- & Hk). apply in_seq in Hk.
    apply (mv_solve_total solve n mean cov G A w0 lam P q _ Hcq Hl Ht Hat). exists y. split; [exact Hy|]. simpl. rewrite Ey.
    destruct (mv_solve_spec solve n mean P q G A None first Hq Hf) as (r & _ & _ & [HF _] & _).
    pose proof (Hm first HF) as Hlo. unfold grid_point.
    assert (HN : INR k <= IZR num - 1).
    { replace (IZR num) with (INR (Z.to_nat num)) by (rewrite INR_IZR_INZ, Z2Nat.id by lia; reflexivity).
      assert (INR k + 1 <= INR (Z.to_nat num)) by (rewrite <- S_INR; apply le_INR; lia). lra. }
    assert (Hd : 0 < IZR num - 1) by (assert (2 <= IZR num) by (apply IZR_le; lia); lra).
    assert (INR k * ((m - dot n mean first) / (IZR num - 1)) <= (IZR num - 1) * ((m - dot n mean first) / (IZR num - 1))).
    { apply Rmult_le_compat_r; [|exact HN]. unfold Rdiv. apply Rmult_le_pos; [lra|]. apply Rlt_le, Rinv_0_lt_compat, Hd. }
    replace ((IZR num - 1) * ((m - dot n mean first) / (IZR num - 1))) with (m - dot n mean first) in H by (field; lra). lra.
  - rewrite Hb. cbn [bind]. eauto.
Qed.

Lemma mv_terms_total n cov w0 lam : (forall a l, w0 = Some a -> lam = Some l -> length a = n /\ length l = n) ->
  exists P q, mv_terms n cov w0 lam = Ok (P, q).
Proof.
  intros H. unfold mv_terms. destruct w0 as [a|]; [|eauto]. destruct lam as [l|]; [|eauto]. destruct (H a l eq_refl eq_refl) as [E1 E2].
  unfold quadratic_turnover, check_shapes. rewrite E1, E2, Nat.eqb_refl. cbn [guard]. eauto.
Qed.
