(** Proofs about mean views with inexact solvers. *)
From Verif Require Import RBase QpBase OptModel OptProofs OptProofs3 OptProofs7 MomSpec BlModel EpModel EpSpec EpProofs EpProofs2 EpProofs4 FvSpec FvProofs FvProofs2 EtSpec EtProofs EtProofs2.
Open Scope R_scope.
Open Scope list_scope.

Lemma posterior_mean_call minimize argsort assets T X p0 m b q : m <> [] -> posterior minimize argsort assets T X p0 m [] [] [] [] [] [] b = Ok q ->
  exists c, build_constraints assets X (q_mean T X p0) (fun i => np_cov T X p0 i i) MMean m ([], []) = Ok c /\ do_ep minimize T p0 c = Ok q.
Proof.
  intros Nm H. unfold posterior in H. destruct m as [|kv m']; [congruence|]. set (m := kv :: m') in *. destruct b.
  - cbn [sequential_blocks nonempty] in H. change (nonempty m) with true in H. cbv iota in H.
    apply bind_ok in H. destruct H as [q1 [H H2]]. apply bind_ok in H. destruct H as [c [B H]]. apply bind_ok in H. destruct H as [q' [D H]].
    injection H as <-. cbn [bind nonempty cvar_steps] in H2. injection H2 as <-. eauto.
  - apply bind_ok in H. destruct H as [q1 [H H2]]. cbn [nonempty andb orb] in H. rewrite andb_false_r in H. cbn [bind all_blocks] in H.
    apply bind_ok in H. destruct H as [c [B H]]. apply bind_ok in B. destruct B as [c' [B B2]]. cbn [build_constraints bind] in B2. injection B2 as <-.
    assert (NE : nonempty (fst c') || nonempty (snd c') = true).
    { apply (build_ne _ _ _ _ _ m _ _ B). left. unfold m. discriminate. }
    rewrite NE in H. cbn [bind nonempty cvar_steps] in H2. injection H2 as <-. eauto.
Qed.

(** At most two inequality rows per view. *)
Lemma add_specs_len row ok rhs l : forall acc acc', add_specs acc row ok rhs l = Ok acc' -> (List.length (snd acc') <= List.length (snd acc) + List.length l)%nat.
Proof.
  induction l as [|[o t] l IH]; intros acc acc' H; cbn [add_specs] in H; [injection H as <-; lia|].
  apply guard_ok in H. destruct H as [_ H]. apply IH in H. cbn [List.length].
  assert (List.length (snd (add_row acc o row (rhs t))) <= S (List.length (snd acc)))%nat by (destruct o; cbn [add_row snd]; rewrite ?app_length; cbn; lia). lia.
Qed.
Lemma parse_len v l : parse_specs v = Ok l -> (List.length l <= 2)%nat.
Proof. destruct v; cbn; intros H; try (injection H as <-; cbn; lia); try discriminate. apply guard_ok in H. destruct H as [_ H]. injection H as <-. cbn. lia. Qed.
Lemma build_len assets X mu var mt vs : forall acc acc', build_constraints assets X mu var mt vs acc = Ok acc' -> (List.length (snd acc') <= List.length (snd acc) + 2 * List.length vs)%nat.
Proof.
  induction vs as [|[key v] vs IH]; intros acc acc' H; cbn [build_constraints] in H; [injection H as <-; cbn; lia|].
  apply bind_ok in H. destruct H as [[[row ok] rhs] [E H]]. apply bind_ok in H. destruct H as [l [P H]].
  apply bind_ok in H. destruct H as [acc1 [A H]]. apply IH in H. apply add_specs_len in A. apply parse_len in P. cbn [List.length]. lia.
Qed.

(** Rows that hold up to a tolerance. *)
Definition cmp_tol (tol e : R) (o : cmp) (t : R) : Prop :=
  match o with Eq => Rabs (e - t) <= tol * (1 + Rabs t) | Ge | Gt => t - tol * (1 + Rabs t) <= e | Le | Lt => e <= t + tol * (1 + Rabs t) end.
Definition sat_tol (tol : R) (T : nat) (c : rows * rows) (q : vec) : Prop :=
  (forall r b, In (r, b) (fst c) -> Rabs (expectation T q r - b) <= tol * (1 + Rabs b)) /\ (forall r h, In (r, h) (snd c) -> expectation T q r <= h + tol * (1 + Rabs h)).
Lemma add_row_tol tol T acc o row raw q : sat_tol tol T (add_row acc o row raw) q -> sat_tol tol T acc q /\ cmp_tol tol (expectation T q row) o raw.
Proof.
  intros [H1 H2]. destruct o; cbn [add_row fst snd cmp_tol] in *.
  - split; [split; auto; intros; apply H1, in_or_app; auto|]. apply H1, in_or_app. right; left; reflexivity.
  - split; [split; auto; intros; apply H2, in_or_app; auto|]. pose proof (H2 (fun s => - row s) (- raw) ltac:(apply in_or_app; right; left; reflexivity)) as K. rewrite expectation_opp, Rabs_Ropp in K. lra.
  - split; [split; auto; intros; apply H2, in_or_app; auto|]. apply H2, in_or_app. right; left; reflexivity.
  - split; [split; auto; intros; apply H2, in_or_app; auto|]. pose proof (H2 (fun s => - row s) (- raw) ltac:(apply in_or_app; right; left; reflexivity)) as K. rewrite expectation_opp, Rabs_Ropp in K. lra.
  - split; [split; auto; intros; apply H2, in_or_app; auto|]. apply H2, in_or_app. right; left; reflexivity.
Qed.
Lemma add_specs_tol tol T row ok rhs q l : forall acc acc', add_specs acc row ok rhs l = Ok acc' -> sat_tol tol T acc' q ->
  sat_tol tol T acc q /\ forall o t, In (o, t) l -> cmp_tol tol (expectation T q row) o (rhs t).
Proof.
  induction l as [|[o t] l IH]; intros acc acc' H S; cbn [add_specs] in H.
  - injection H as <-. split; [auto|intros ? ? []].
  - apply guard_ok in H. destruct H as [_ H]. destruct (IH _ _ H S) as [S1 R]. apply add_row_tol in S1. destruct S1 as [S0 C]. split; auto.
    intros o' t' [E|I]; [injection E as <- <-; auto|auto].
Qed.
Lemma specs_within tol v l x : parse_specs v = Ok l -> (forall o t, In (o, t) l -> cmp_tol tol x o t) -> meets_within tol x v.
Proof.
  intros P H. destruct v as [t|o t|lo hi|]; cbn [parse_specs] in P.
  - injection P as <-. apply (H Eq t). left; reflexivity.
  - injection P as <-. specialize (H o t (or_introl eq_refl)). destruct o; exact H.
  - apply guard_ok in P. destruct P as [_ P]. injection P as <-. split; [apply (H Ge lo); left; reflexivity|apply (H Le hi); right; left; reflexivity].
  - discriminate.
Qed.
Lemma mean_row assets T X mu var key row ok rhs q : view_row assets X mu var MMean key = Ok (row, ok, rhs) ->
  stat_of assets T X q MMean key (expectation T q row) /\ forall t, rhs t = t.
Proof.
  intros H. cbn [view_row] in H.
  assert (ONE : forall a, key = KOne a -> stat_of assets T X q MMean key (expectation T q row) /\ forall t, rhs t = t).
  { intros a ->. cbn [key_idx] in H. apply bind_ok in H. destruct H as [i [I H]]. apply ok3 in H. destruct H as [<- [_ <-]]. apply asset_idx_column in I.
    split; auto. apply (stat_mean assets T X q a i I). }
  destruct key as [a|[|a [|b [|c l]]]]; try (cbn [key_idx bind] in H; discriminate); [apply (ONE a eq_refl)|].
  apply bind_ok in H. destruct H as [i [I H]]. apply bind_ok in H. destruct H as [j [J H]]. apply ok3 in H. destruct H as [<- [_ <-]]. apply asset_idx_column in I, J.
  split; auto. replace (expectation T q (fun s => X s i - X s j)) with (mean_of T q X i - mean_of T q X j); [apply (stat_diff assets T X q a b); auto|].
  unfold mean_of, expectation. rewrite <- sumn_minus. apply sumn_ext; intros; ring.
Qed.
Lemma build_within tol assets T X mu var q vs : forall acc acc', build_constraints assets X mu var MMean vs acc = Ok acc' -> sat_tol tol T acc' q ->
  sat_tol tol T acc q /\ mean_views_within tol assets T X q vs.
Proof.
  induction vs as [|[key v] vs IH]; intros acc acc' H S; cbn [build_constraints] in H.
  - injection H as <-. split; [auto|intros ? ? []].
  - apply bind_ok in H. destruct H as [[[row ok] rhs] [E H]]. apply bind_ok in H. destruct H as [l [P H]].
    apply bind_ok in H. destruct H as [acc1 [A H]]. destruct (IH _ _ H S) as [S1 R]. destruct (add_specs_tol _ _ _ _ _ _ _ _ _ A S1) as [S0 C]. split; auto.
    intros key' v' [Ek|I]; [|auto]. injection Ek as <- <-. destruct (mean_row assets T X mu var key row ok rhs q E) as [St M].
    exists (expectation T q row). split; auto. apply (specs_within tol v l); auto. intros o t I. rewrite <- (M t). auto.
Qed.

(** ** Expectations under close distributions *)
Lemma exp_close T q q' f M : (forall s, (s < T)%nat -> Rabs (f s) <= M) -> Rabs (expectation T q f - expectation T q' f) <= M * l1_dist T q q'.
Proof.
  intros H. unfold expectation, l1_dist. rewrite <- sumn_minus, <- sumn_scale. eapply Rle_trans; [apply sumn_abs_le|]. apply sumn_le. intros s Hs.
  replace (q s * f s - q' s * f s) with ((q s - q' s) * f s) by ring. rewrite Rabs_mult, Rmult_comm. apply Rmult_le_compat_r; [apply Rabs_pos|auto].
Qed.
Lemma exp_bound T q f M : is_prob T q -> (forall s, (s < T)%nat -> Rabs (f s) <= M) -> Rabs (expectation T q f) <= M.
Proof.
  intros [Q0 Q1] H. unfold expectation. eapply Rle_trans; [apply sumn_abs_le|]. apply Rle_trans with (sumn T (fun s => q s * M)); [|rewrite sumn_scale_r, Q1; lra].
  apply sumn_le. intros s Hs. rewrite Rabs_mult, (Rabs_right (q s)) by (apply Rle_ge; auto). apply Rmult_le_compat_l; auto.
Qed.
Lemma cov_close T q q' X i j M : is_prob T q -> is_prob T q' -> (forall s, (s < T)%nat -> Rabs (X s i) <= M) -> (forall s, (s < T)%nat -> Rabs (X s j) <= M) ->
  Rabs (cov_of T q X i j - cov_of T q' X i j) <= 3 * (M * M) * l1_dist T q q'.
Proof.
  intros P P' Hi Hj. pose proof (cross_moment T q X i j (proj2 P)) as C1. pose proof (cross_moment T q' X i j (proj2 P')) as C2.
  assert (C3 : Rabs (expectation T q (fun s => X s i * X s j) - expectation T q' (fun s => X s i * X s j)) <= M * M * l1_dist T q q').
  { apply exp_close. intros s Hs. rewrite Rabs_mult. apply Rmult_le_compat; auto using Rabs_pos. }
  pose proof (exp_close T q q' (fun s => X s i) M Hi) as C4. pose proof (exp_close T q q' (fun s => X s j) M Hj) as C5. fold (mean_of T q X i) (mean_of T q' X i) in C4. fold (mean_of T q X j) (mean_of T q' X j) in C5.
  pose proof (exp_bound T q' (fun s => X s i) M P' Hi) as C6. pose proof (exp_bound T q (fun s => X s j) M P Hj) as C7. fold (mean_of T q' X i) in C6. fold (mean_of T q X j) in C7.
  set (a := mean_of T q X i) in *. set (b := mean_of T q' X i) in *. set (c := mean_of T q X j) in *. set (g := mean_of T q' X j) in *. set (D := l1_dist T q q') in *.
  replace (cov_of T q X i j - cov_of T q' X i j) with ((expectation T q (fun s => X s i * X s j) - expectation T q' (fun s => X s i * X s j)) + (- ((a - b) * c) + - (b * (c - g)))) by lra.
  eapply Rle_trans; [apply Rabs_triang|]. eapply Rle_trans; [apply Rplus_le_compat_l, Rabs_triang|]. rewrite !Rabs_Ropp, !Rabs_mult.
  assert (Rabs (a - b) * Rabs c <= M * D * M) by (apply Rmult_le_compat; auto using Rabs_pos).
  assert (Rabs b * Rabs (c - g) <= M * (M * D)) by (apply Rmult_le_compat; auto using Rabs_pos). lra.
Qed.

(** ** Whole calls *)
From Verif Require Import FvProofs4.
Lemma fv_mean_call minimize argsort chol normals pr m rank b r : flexible_views minimize argsort chol normals pr (Views m WNone WNone WNone [] WNone [] rank b) = Ok r ->
  fv_setup chol normals pr = Ok (f_pandas r, f_assets r, f_S r, f_N r, f_R r, f_p0 r) /\
  (exists mean, to_dict SNum (f_assets r) m = Ok mean /\ apply_rank mean rank = Ok (f_mean_views r)) /\
  f_mean r = q_mean (f_S r) (f_R r) (f_q r) /\ f_cov r = np_cov (f_S r) (f_R r) (f_q r) /\
  (f_mean_views r = [] /\ f_q r = f_p0 r \/ f_mean_views r <> [] /\
   exists c, build_constraints (f_assets r) (f_R r) (q_mean (f_S r) (f_R r) (f_p0 r)) (fun i => np_cov (f_S r) (f_R r) (f_p0 r) i i) MMean (f_mean_views r) ([], []) = Ok c /\
     do_ep minimize (f_S r) (f_p0 r) c = Ok (f_q r)).
Proof.
  intros H. destruct (fv_inv _ _ _ _ _ _ _ H) as [E [_ [m' [vo [va [sk [cv [E1 [E2 [E3 [E4 [E5 [E6 [E7 [E8 E9]]]]]]]]]]]]]]].
  cbn in E2, E3, E4, E5. injection E2 as <-. injection E3 as <-. injection E4 as <-. injection E5 as <-. cbn [vs_corr vs_quantile vs_sequential] in E7.
  split; auto. split; [eauto|]. split; auto. split; auto. assert (D : f_mean_views r = [] \/ f_mean_views r <> []) by (destruct (f_mean_views r); [left; auto|right; discriminate]).
  destruct D as [V|V].
  - left. split; auto. rewrite V, posterior_none in E7. injection E7 as <-. reflexivity.
  - right. split; auto. apply (posterior_mean_call _ _ _ _ _ _ _ _ _ V E7).
Qed.

Lemma do_ep_len (c : rows * rows) : opt_rows (match snd c with [] => None | G => Some G end) = snd c.
Proof. destruct (snd c); reflexivity. Qed.

Lemma do_ep_within eps minimize T p c q : sound_tol eps minimize -> 0 <= eps < 1000 -> do_ep minimize T p c = Ok q ->
  (forall s, 0 < q s) /\ is_prob T q /\ sat_tol (eps / (1000 - eps)) T c q.
Proof.
  intros So He H. unfold do_ep in H. assert (Ho : has_ones (List.length (map p (seq 0 T))) (fst c ++ [ones_row])) by (rewrite seq_len; apply ones_has).
  destruct (ep_tolerance_l _ _ _ _ _ _ _ So He H Ho) as [P [Q [H1 H2]]]. rewrite seq_len in *. rewrite do_ep_len in H2. split; auto. split; auto. split.
  - intros r b I. replace (eps / (1000 - eps) * (1 + Rabs b)) with (eps * (1 + Rabs b) / (1000 - eps)) by (field; lra). apply H1, in_or_app. auto.
  - intros r h I. replace (eps / (1000 - eps) * (1 + Rabs h)) with (eps * (1 + Rabs h) / (1000 - eps)) by (field; lra). apply H2; auto.
Qed.
Lemma near_tol eps B minimize : sound_near eps B minimize -> sound_tol eps minimize.
Proof. intros H d lam M. apply (H d lam M). Qed.

Lemma fv_within_l eps minimize argsort chol normals pr m rank b r : sound_tol eps minimize -> 0 <= eps < 1000 ->
  flexible_views minimize argsort chol normals pr (Views m WNone WNone WNone [] WNone [] rank b) = Ok r -> f_mean_views r <> [] ->
  (forall s, 0 < f_q r s) /\ is_prob (f_S r) (f_q r) /\ mean_views_within (eps / (1000 - eps)) (f_assets r) (f_S r) (f_R r) (f_q r) (f_mean_views r).
Proof.
  intros So He H Ne. destruct (fv_mean_call _ _ _ _ _ _ _ _ _ H) as [_ [_ [_ [_ [[K _]|[_ [c [Bc Dc]]]]]]]]; [congruence|].
  destruct (do_ep_within _ _ _ _ _ _ So He Dc) as [P [Q W]]. split; auto. split; auto. apply (build_within _ _ _ _ _ _ _ _ _ _ Bc W).
Qed.

Lemma fv_near_optimal_l eps B minimize argsort chol normals pr m rank b r q' : sound_near eps B minimize -> 0 <= eps < 1000 ->
  flexible_views minimize argsort chol normals pr (Views m WNone WNone WNone [] WNone [] rank b) = Ok r -> f_mean_views r <> [] ->
  is_prob (f_S r) q' -> views_hold (f_assets r) (f_S r) (f_R r) q' MMean (f_mean_views r) -> (forall s, (s < f_S r)%nat -> exp (-700) <= q' s) ->
  let prior := fun s => f_p0 r s / sumn (f_S r) (f_p0 r) in
  kl (f_S r) (f_q r) prior <= (kl (f_S r) q' prior + eps / 1000 * (B + 2 * INR (List.length (f_mean_views r)) + 2)) / (1 - eps / 1000).
Proof.
  intros So He H Ne P V Fl prior. destruct (fv_mean_call _ _ _ _ _ _ _ _ _ H) as [_ [_ [_ [_ [[K _]|[_ [c [Bc Dc]]]]]]]]; [congruence|].
  assert (S' : sat (f_S r) c q').
  { apply (build_sat (f_assets r) (f_S r) (f_R r) _ _ MMean q' P (f_mean_views r) _ _ Bc); [discriminate|intros; exact I|]. split; auto. split; intros ? ? []. }
  unfold do_ep in Dc. assert (Ho : has_ones (List.length (map (f_p0 r) (seq 0 (f_S r)))) (fst c ++ [ones_row])) by (rewrite seq_len; apply ones_has).
  pose proof (ep_near_optimal_l eps B minimize _ _ _ _ _ q' So He Dc Ho) as N. rewrite seq_len in N. rewrite do_ep_len in N.
  specialize (N (proj2 (obeys_sat _ c q') (conj P S')) Fl).
  assert (PE : forall s, (s < f_S r)%nat -> of_list (map (f_p0 r) (seq 0 (f_S r))) s / rsum (map (f_p0 r) (seq 0 (f_S r))) = prior s).
  { intros s Hs. rewrite seq_at by auto. unfold prior. f_equal. rewrite <- (sumn_of_list (map (f_p0 r) (seq 0 (f_S r)))), seq_len. apply sumn_ext. intros; apply seq_at; auto. }
  rewrite (kl_ext _ (f_q r) (f_q r) _ prior), (kl_ext _ q' q' _ prior) in N by auto.
  eapply Rle_trans; [exact N|]. unfold Rdiv. apply Rmult_le_compat_r; [apply Rlt_le, Rinv_0_lt_compat; lra|]. apply Rplus_le_compat_l.
  apply build_len in Bc. cbn [snd List.length plus] in Bc. apply le_INR in Bc. rewrite mult_INR in Bc. change (INR 2) with 2 in Bc. apply Rmult_le_compat_l; [|lra]. apply Rmult_le_pos; [lra|apply Rlt_le, Rinv_0_lt_compat; lra].
Qed.

Lemma fv_pair_l eps B B' minimize minimize' argsort argsort' chol normals pr m rank b b' r r' : sound_near eps B minimize -> sound_near eps B' minimize' -> 0 <= eps < 1000 ->
  flexible_views minimize argsort chol normals pr (Views m WNone WNone WNone [] WNone [] rank b) = Ok r ->
  flexible_views minimize' argsort' chol normals pr (Views m WNone WNone WNone [] WNone [] rank b') = Ok r' ->
  f_S r' = f_S r /\ f_R r' = f_R r /\ f_assets r' = f_assets r /\
  l1_dist (f_S r) (f_q r) (f_q r') <= 6 * sqrt (eps / 1000 * (B + B' + 2 * INR (List.length (f_mean_views r)))) / (1 - eps / 1000) /\
  (f_mean_views r <> [] -> is_prob (f_S r) (f_q r) /\ is_prob (f_S r) (f_q r')).
Proof.
  intros So So' He H H'. destruct (fv_mean_call _ _ _ _ _ _ _ _ _ H) as [S1 [[d1 [D1 A1]] [_ [_ Q]]]]. destruct (fv_mean_call _ _ _ _ _ _ _ _ _ H') as [S2 [[d2 [D2 A2]] [_ [_ Q']]]].
  rewrite S1 in S2. injection S2 as P1 P2 P3 P4 P5 P6. rewrite <- P2, <- P3, <- P5, <- P6 in *. rewrite D1 in D2. injection D2 as <-. rewrite A1 in A2. injection A2 as A2. rewrite <- A2 in Q'.
  assert (Z : 0 <= 6 * sqrt (eps / 1000 * (B + B' + 2 * INR (List.length (f_mean_views r)))) / (1 - eps / 1000)).
  { apply Rmult_le_pos; [apply Rmult_le_pos; [lra|apply sqrt_pos]|apply Rlt_le, Rinv_0_lt_compat; lra]. }
  split; auto. split; auto. split; auto. destruct Q as [[V Q]|[V [c [Bc Dc]]]]; destruct Q' as [[V' Q']|[V' [c' [Bc' Dc']]]]; try congruence.
  - split; [|congruence]. rewrite Q, Q'. unfold l1_dist. rewrite (sumn_ext _ _ (fun _ => 0)); [rewrite sumn_zero; auto|]. intros s _. rewrite Rminus_eq_0, Rabs_R0. reflexivity.
  - rewrite Bc in Bc'. injection Bc' as <-. split.
    + unfold do_ep in Dc, Dc'. assert (Ho : has_ones (List.length (map (f_p0 r) (seq 0 (f_S r)))) (fst c ++ [ones_row])) by (rewrite seq_len; apply ones_has).
      pose proof (ep_pair_l eps B B' minimize minimize' _ _ _ _ _ _ _ So So' He Dc Dc' Ho) as N. rewrite seq_len in N. rewrite do_ep_len in N.
      eapply Rle_trans; [exact N|]. unfold Rdiv. apply Rmult_le_compat_r; [apply Rlt_le, Rinv_0_lt_compat; lra|]. apply Rmult_le_compat_l; [lra|]. apply sqrt_le_1_alt.
      apply build_len in Bc. cbn [snd List.length plus] in Bc. apply le_INR in Bc. rewrite mult_INR in Bc. change (INR 2) with 2 in Bc. apply Rmult_le_compat_l; [|lra]. lra.
    + intros _. split; [apply (do_ep_within eps minimize _ _ _ _ (near_tol _ _ _ So) He Dc)|apply (do_ep_within eps minimize' _ _ _ _ (near_tol _ _ _ So') He Dc')].
Qed.
