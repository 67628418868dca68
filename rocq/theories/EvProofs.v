(** Proofs about views of several kinds with inexact solvers. *)
From Coq Require Import FunctionalExtensionality.
From Verif Require Import RBase QpBase OptModel OptProofs OptProofs3 OptProofs7 MomSpec BlModel EpModel EpSpec EpProofs EpProofs2 EpProofs4 FvSpec FvProofs FvProofs2 FvProofs3 FvProofs4 FvProofs6 EtSpec EtProofs EtProofs2 EtProofs3 EvSpec.
Open Scope R_scope.
Open Scope list_scope.

Lemma cmp_slack tol x v l f : parse_specs v = Ok l -> (forall o t, In (o, t) l -> cmp_tol tol x o (f t)) -> meets_slack (fun t => tol * (1 + Rabs t)) x (map_spec f v).
Proof.
  intros P H. destruct v as [t|o t|lo hi|]; cbn [parse_specs map_spec meets_slack] in *.
  - injection P as <-. apply (H Eq t). left; reflexivity.
  - injection P as <-. specialize (H o t (or_introl eq_refl)). destruct o; exact H.
  - apply guard_ok in P. destruct P as [_ P]. injection P as <-. split; [apply (H Ge lo); left; reflexivity|apply (H Le hi); right; left; reflexivity].
  - discriminate.
Qed.

Lemma row_request assets T X l q mt key row ok rhs : (mt = MCorr -> exists ls, key = KTup ls) ->
  view_row assets X (mean_of T l X) (var_of T l X) mt key = Ok (row, ok, rhs) -> raw_request assets T X l q mt key (expectation T q row) rhs.
Proof.
  intros K H. destruct mt; cbn [view_row] in H.
  - assert (ONE : forall a, key = KOne a -> raw_request assets T X l q MMean key (expectation T q row) rhs).
    { intros a ->. cbn [key_idx] in H. apply bind_ok in H. destruct H as [i [I H]]. apply ok3 in H. destruct H as [<- [_ <-]]. apply asset_idx_column in I.
      apply (raw_mean assets T X l q a i I). }
    destruct key as [a|[|a [|b [|c t]]]]; try (cbn [key_idx bind] in H; discriminate); [apply (ONE a eq_refl)|].
    apply bind_ok in H. destruct H as [i [I H]]. apply bind_ok in H. destruct H as [j [J H]]. apply ok3 in H. destruct H as [<- [_ <-]]. apply asset_idx_column in I, J.
    replace (expectation T q (fun s => X s i - X s j)) with (mean_of T q X i - mean_of T q X j); [apply (raw_diff assets T X l q a b); auto|].
    unfold mean_of, expectation. rewrite <- sumn_minus. apply sumn_ext; intros; ring.
  - destruct key as [a|t]; [|discriminate]. cbn [key_idx] in H. apply bind_ok in H. destruct H as [i [I H]]. apply ok3 in H. destruct H as [<- [_ <-]]. apply asset_idx_column in I.
    apply (raw_vol assets T X l q a i I).
  - destruct key as [a|t]; [|discriminate]. cbn [key_idx] in H. apply bind_ok in H. destruct H as [i [I H]]. apply ok3 in H. destruct H as [<- [_ <-]]. apply asset_idx_column in I.
    apply (raw_var assets T X l q a i I).
  - destruct key as [a|t]; [|discriminate]. cbn [key_idx] in H. apply bind_ok in H. destruct H as [i [I H]]. apply guard_ok in H. destruct H as [_ H]. apply ok3 in H. destruct H as [<- [_ <-]].
    apply asset_idx_column in I. apply (raw_skew assets T X l q a i I).
  - destruct (K eq_refl) as [ls ->]. destruct ls as [|a [|b [|c t]]]; try discriminate. cbn [unpack2 bind] in H.
    apply bind_ok in H. destruct H as [i [I H]]. apply bind_ok in H. destruct H as [j [J H]]. apply ok3 in H. destruct H as [<- [_ <-]]. apply asset_idx_column in I, J.
    apply (raw_corr assets T X l q a b i j I J).
Qed.

Lemma build_tol tol assets T X l q mt vs : forall acc acc', build_constraints assets X (mean_of T l X) (var_of T l X) mt vs acc = Ok acc' -> sat_tol tol T acc' q ->
  sat_tol tol T acc q /\ views_within tol assets T X l q mt vs.
Proof.
  induction vs as [|[key v] vs IH]; intros acc acc' H S; cbn [build_constraints] in H.
  - injection H as <-. split; [auto|intros ? ? []].
  - apply bind_ok in H. destruct H as [[[row ok] rhs] [E H]]. apply bind_ok in H. destruct H as [sp [P H]].
    apply bind_ok in H. destruct H as [acc1 [A H]]. destruct (IH _ _ H S) as [S1 R]. destruct (add_specs_tol _ _ _ _ _ _ _ _ _ A S1) as [S0 C]. split; auto.
    intros key' v' [Ek|I] K; [|auto]. injection Ek as <- <-. exists (expectation T q row), rhs. split; [eapply row_request; eauto|]. eapply cmp_slack; eauto.
Qed.
Lemma all_tol tol assets T X l q : forall bs acc acc', all_blocks assets X bs (mean_of T l X) (var_of T l X) acc = Ok acc' -> sat_tol tol T acc' q ->
  sat_tol tol T acc q /\ forall mt vs, In (mt, vs) bs -> views_within tol assets T X l q mt vs.
Proof.
  induction bs as [|[mt vs] bs IH]; intros acc acc' H S; cbn [all_blocks] in H.
  - injection H as <-. split; [auto|intros ? ? []].
  - apply bind_ok in H. destruct H as [acc1 [B H]]. destruct (IH _ _ H S) as [S1 R]. destruct (build_tol _ _ _ _ _ _ _ _ _ _ B S1) as [S0 V]. split; auto.
    intros mt' vs' [Eq|I]; [injection Eq as <- <-; auto|auto].
Qed.
Lemma all_len assets X mu var : forall bs acc acc', all_blocks assets X bs mu var acc = Ok acc' -> (List.length (snd acc') <= List.length (snd acc) + 2 * view_count bs)%nat.
Proof.
  induction bs as [|[mt vs] bs IH]; intros acc acc' H; cbn [all_blocks] in H.
  - injection H as <-. cbn; lia.
  - apply bind_ok in H. destruct H as [acc1 [B H]]. apply IH in H. apply build_len in B. cbn [view_count fold_right snd]. fold (view_count bs). lia.
Qed.

(** The call is one entropy pooling around the moments of [l]. *)
Lemma simultaneous_tol eps minimize argsort assets T X p0 mean vol var skew corr q : sound_tol eps minimize -> 0 <= eps < 1000 -> is_prob T p0 ->
  (exists mt vs, In (mt, vs) (kinds mean vol var skew corr) /\ vs <> []) ->
  posterior minimize argsort assets T X p0 mean vol var skew corr [] [] false = Ok q ->
  exists l c, is_prob T l /\ (mean = [] -> l = p0) /\
    (mean = [] \/ views_within (eps / (1000 - eps)) assets T X p0 l MMean mean \/ vol = [] /\ var = [] /\ skew = [] /\ corr = []) /\
    all_blocks assets X (kinds mean vol var skew corr) (mean_of T l X) (var_of T l X) ([], []) = Ok c /\ do_ep minimize T p0 c = Ok q.
Proof.
  intros So He P0 NE H. unfold posterior in H. apply bind_ok in H. destruct H as [q1 [H H2]].
  cbn [nonempty bind cvar_steps] in H2. injection H2 as ->.
  apply bind_ok in H. destruct H as [[mu va] [L H]]. apply bind_ok in H. destruct H as [c [B H]].
  fold (kinds mean vol var skew corr) in B. pose proof (all_blocks_ne _ _ _ _ _ _ _ B (or_introl NE)) as N. unfold ne in N. rewrite N in H.
  assert (E0 : q_mean T X p0 = mean_of T p0 X) by (apply functional_extensionality; intros i; apply q_mean_eq).
  assert (V0 : (fun i => np_cov T X p0 i i) = var_of T p0 X) by (apply functional_extensionality; intros i; rewrite np_cov_eq by apply P0; apply cov_of_diag).
  rewrite E0, V0 in L. destruct (nonempty mean && (nonempty vol || nonempty var || nonempty skew || nonempty corr)) eqn:E.
  - apply bind_ok in L. destruct L as [cm [Bm L]]. apply bind_ok in L. destruct L as [r [Dm L]]. injection L as <- <-.
    destruct (do_ep_within _ _ _ _ _ _ So He Dm) as [_ [Pr Sr]]. exists r, c. split; auto. split; [intros ->; discriminate|]. split.
    + right. left. apply (build_tol _ _ _ _ _ _ _ _ _ _ Bm Sr).
    + replace (mean_of T r X) with (q_mean T X r) by (apply functional_extensionality; intros i; apply q_mean_eq).
      replace (var_of T r X) with (q_var T X r (q_mean T X r)) by (apply functional_extensionality; intros i; apply q_var_eq). auto.
  - injection L as <- <-. exists p0, c. split; auto. split; auto. split; [|auto]. apply andb_false_iff in E. destruct E as [E|E].
    + left. destruct mean; [auto|discriminate].
    + right. right. destruct vol; [|discriminate]. destruct var; [|discriminate]. destruct skew; [|discriminate]. destruct corr; [|discriminate]. auto.
Qed.

Lemma do_ep_near eps B minimize T p c q w : sound_near eps B minimize -> 0 <= eps < 1000 -> is_prob T p -> do_ep minimize T p c = Ok q ->
  is_prob T w -> sat T c w -> (forall s, (s < T)%nat -> exp (-700) <= w s) ->
  kl T q p <= (kl T w p + eps / 1000 * (B + INR (List.length (snd c)) + 2)) / (1 - eps / 1000).
Proof.
  intros So He Pp Dc Pw Sw Fl. unfold do_ep in Dc. assert (Ho : has_ones (List.length (map p (seq 0 T))) (fst c ++ [ones_row])) by (rewrite seq_len; apply ones_has).
  pose proof (ep_near_optimal_l eps B minimize _ _ _ _ _ w So He Dc Ho) as N. rewrite seq_len in N. rewrite do_ep_len in N.
  specialize (N (proj2 (obeys_sat _ c w) (conj Pw Sw)) Fl).
  assert (PE : forall s, (s < T)%nat -> of_list (map p (seq 0 T)) s / rsum (map p (seq 0 T)) = p s).
  { intros s Hs. rewrite seq_at by auto. rewrite <- (sumn_of_list (map p (seq 0 T))), seq_len, (sumn_ext _ _ p) by (intros; apply seq_at; auto). rewrite (proj2 Pp). field. }
  rewrite (kl_ext _ q q _ p), (kl_ext _ w w _ p) in N by auto. exact N.
Qed.
Lemma do_ep_pair eps B B' minimize minimize' T p c q q' : sound_near eps B minimize -> sound_near eps B' minimize' -> 0 <= eps < 1000 ->
  do_ep minimize T p c = Ok q -> do_ep minimize' T p c = Ok q' ->
  l1_dist T q q' <= 6 * sqrt (eps / 1000 * (B + B' + INR (List.length (snd c)))) / (1 - eps / 1000).
Proof.
  intros So So' He Dc Dc'. unfold do_ep in Dc, Dc'. assert (Ho : has_ones (List.length (map p (seq 0 T))) (fst c ++ [ones_row])) by (rewrite seq_len; apply ones_has).
  pose proof (ep_pair_l eps B B' minimize minimize' _ _ _ _ _ _ _ So So' He Dc Dc' Ho) as N. rewrite seq_len in N. rewrite do_ep_len in N. exact N.
Qed.
Lemma grow_bound eps a b n c k : 0 <= eps < 1000 -> (n <= 2 * k)%nat -> (a + eps / 1000 * (b + INR n + c)) / (1 - eps / 1000) <= (a + eps / 1000 * (b + 2 * INR k + c)) / (1 - eps / 1000).
Proof.
  intros He H. apply le_INR in H. rewrite mult_INR in H. change (INR 2) with 2 in H. unfold Rdiv at 1 3. apply Rmult_le_compat_r; [apply Rlt_le, Rinv_0_lt_compat; lra|].
  apply Rplus_le_compat_l, Rmult_le_compat_l; [|lra]. apply Rmult_le_pos; [lra|apply Rlt_le, Rinv_0_lt_compat; lra].
Qed.
Lemma grow_sqrt eps b n k : 0 <= eps < 1000 -> (n <= 2 * k)%nat -> 6 * sqrt (eps / 1000 * (b + INR n)) / (1 - eps / 1000) <= 6 * sqrt (eps / 1000 * (b + 2 * INR k)) / (1 - eps / 1000).
Proof.
  intros He H. apply le_INR in H. rewrite mult_INR in H. change (INR 2) with 2 in H. unfold Rdiv at 1 3. apply Rmult_le_compat_r; [apply Rlt_le, Rinv_0_lt_compat; lra|].
  apply Rmult_le_compat_l; [lra|]. apply sqrt_le_1_alt, Rmult_le_compat_l; [|lra]. apply Rmult_le_pos; [lra|apply Rlt_le, Rinv_0_lt_compat; lra].
Qed.

(** *** A mean view next to a volatility or variance view *)
Lemma mean_within tol assets T X l q vs a i m : column assets a i -> views_within tol assets T X l q MMean vs -> (In (KOne a, SNum m) vs \/ In (KOne a, SOp Eq m) vs) ->
  Rabs (mean_of T q X i - m) <= tol * (1 + Rabs m).
Proof.
  intros C V I. destruct I as [I|I]; destruct (V _ _ I ltac:(discriminate)) as [x [f [S M]]]; inversion S; subst; cbn in M; rewrite (column_fun _ _ _ _ C H0); auto.
Qed.
Lemma square_gap a b m e : Rabs (a - m) <= e -> Rabs (b - m) <= e -> Rabs (a ^ 2 - b ^ 2) <= 4 * e * (Rabs m + e) /\ b ^ 2 <= (Rabs m + e) ^ 2.
Proof.
  intros Ha Hb. assert (E0 : 0 <= e) by (eapply Rle_trans; [apply Rabs_pos|exact Ha]). pose proof (Rabs_pos m) as M0.
  assert (A : Rabs a <= Rabs m + e). { replace a with (m + (a - m)) by ring. eapply Rle_trans; [apply Rabs_triang|lra]. }
  assert (B : Rabs b <= Rabs m + e). { replace b with (m + (b - m)) by ring. eapply Rle_trans; [apply Rabs_triang|lra]. }
  assert (D : Rabs (a - b) <= 2 * e). { replace (a - b) with ((a - m) + - (b - m)) by ring. eapply Rle_trans; [apply Rabs_triang|]. rewrite Rabs_Ropp. lra. }
  assert (S : Rabs (a + b) <= 2 * (Rabs m + e)) by (eapply Rle_trans; [apply Rabs_triang|lra]). split.
  - replace (a ^ 2 - b ^ 2) with ((a - b) * (a + b)) by ring. rewrite Rabs_mult. replace (4 * e * (Rabs m + e)) with (2 * e * (2 * (Rabs m + e))) by ring.
    apply Rmult_le_compat; auto using Rabs_pos.
  - rewrite <- (pow2_abs b). apply pow_incr. split; [apply Rabs_pos|auto].
Qed.
Lemma slack_step tol m a b x t2 : 0 <= tol -> Rabs (a - m) <= tol * (1 + Rabs m) -> Rabs (b - m) <= tol * (1 + Rabs m) -> 
  let d := tol * (1 + Rabs (t2 + b ^ 2)) in
  (t2 + b ^ 2 - d <= x + a ^ 2 -> t2 - variance_slack tol m t2 <= x) /\ (x + a ^ 2 <= t2 + b ^ 2 + d -> x <= t2 + variance_slack tol m t2).
Proof.
  intros Ht Ha Hb d. destruct (square_gap _ _ _ _ Ha Hb) as [G B2]. unfold variance_slack. cbv zeta. set (e := tol * (1 + Rabs m)) in *.
  assert (D : d <= tol * (1 + Rabs t2 + (Rabs m + e) ^ 2)).
  { unfold d. apply Rmult_le_compat_l; auto. assert (K : Rabs (t2 + b ^ 2) <= Rabs t2 + b ^ 2). { eapply Rle_trans; [apply Rabs_triang|]. rewrite (Rabs_right (b ^ 2)); [lra|]. apply Rle_ge, pow2_ge_0. } lra. }
  assert (Ga : - (4 * e * (Rabs m + e)) <= a ^ 2 - b ^ 2 <= 4 * e * (Rabs m + e)) by (split; [pose proof (Rle_abs (- (a ^ 2 - b ^ 2))); rewrite Rabs_Ropp in *; lra|pose proof (Rle_abs (a ^ 2 - b ^ 2)); lra]).
  split; intros; lra.
Qed.
Lemma slack_spec tol m a b x f v : 0 <= tol -> Rabs (a - m) <= tol * (1 + Rabs m) -> Rabs (b - m) <= tol * (1 + Rabs m) ->
  meets_slack (fun t => tol * (1 + Rabs t)) (x + a ^ 2) (map_spec (fun t => f t + b ^ 2) v) -> meets_slack (variance_slack tol m) x (map_spec f v).
Proof.
  intros Ht Ha Hb H. pose proof (fun t => slack_step tol m a b x (f t) Ht Ha Hb) as K. cbv zeta in K.
  assert (EQ : forall t, Rabs (x + a ^ 2 - (f t + b ^ 2)) <= tol * (1 + Rabs (f t + b ^ 2)) -> Rabs (x - f t) <= variance_slack tol m (f t)).
  { intros t Hq. destruct (K t) as [K1 K2]. pose proof (Rle_abs (x + a ^ 2 - (f t + b ^ 2))) as A1. pose proof (Rle_abs (- (x + a ^ 2 - (f t + b ^ 2)))) as A2. rewrite Rabs_Ropp in A2.
    apply Rabs_le. split; [assert (f t - variance_slack tol m (f t) <= x) by (apply K1; lra); lra|assert (x <= f t + variance_slack tol m (f t)) by (apply K2; lra); lra]. }
  destruct v as [t|o t|lo hi|]; cbn [map_spec meets_slack] in *; auto.
  - destruct o; auto; [apply K; auto|apply K; auto|apply K; auto|apply K; auto].
  - destruct H as [H1 H2]. split; [apply K; auto|apply K; auto].
Qed.
