(** Composite stresses, performance reports, scenario P&L. *)
From Verif Require Import RBase QpBase SortLib OptModel ConsModel DistModel ProbRModel ProbRSpec ProbRProofs RiskModel RiskSpec RiskProofs MomSpec MomProofs BlModel EpModel EpSpec EpProofs EpProofs2 EpProofs3 EpProofs4 EpProofs5 StModel FvSpec FvProofs FvProofs5 StSpec StProofs StProofs2 StProofs3 StProofs4 StProofs5.
From Verif Require MomModel.
Open Scope R_scope.
Open Scope list_scope.

Lemma positive_clean q : positive_distribution q -> clean (Some q) /\ map (fun x => x / rsum q) q = q.
Proof.
  intros [_ S]. split; [intros l E; injection E as <-; auto|]. rewrite S. rewrite <- (map_id q) at 2. apply map_ext. intros. field.
Qed.

Lemma stress_with argsort w sc p qs conf dm o : sorts Rle 0 argsort -> frame_ok sc -> clean p -> positive_distribution qs ->
  stress_test argsort w sc p (Some qs) None conf dm = Ok o ->
  exists q st, in_force p (sc_T sc) q /\ measures_book (so_nom o) w sc (sc_X sc) q conf dm /\
    so_stress o = Some st /\ measures_book st w sc (sc_X sc) qs conf dm /\ so_kl o = Some (kl_divergence qs q).
Proof.
  intros Hs Hf Cp D H. destruct (positive_clean qs D) as [C E].
  destruct (stress_reports_l _ _ _ _ _ _ _ _ _ Hs Hf Cp C H) as (_ & q & I & V & M & _ & S).
  destruct S as (X & qs' & st & E1 & -> & [I' K] & V' & M'); [left; discriminate|]. cbn in I'. rewrite E in I'. subst qs'. exists q, st. auto 10.
Qed.

Lemma exp_decay_stress_l argsort w sc p hl conf dm o : sorts Rle 0 argsort -> frame_ok sc -> clean p ->
  exp_decay_stress argsort w sc p hl conf dm = Ok o ->
  exists q qs st, in_force p (sc_T sc) q /\ measures_book (so_nom o) w sc (sc_X sc) q conf dm /\
    List.length qs = sc_T sc /\ positive_distribution qs /\ (forall i j, (i <= j < sc_T sc)%nat -> nth i qs 0 = nth j qs 0 * Rpower 2 (- (INR (j - i) / hl))) /\
    so_stress o = Some st /\ measures_book st w sc (sc_X sc) qs conf dm /\ so_kl o = Some (kl_divergence qs q).
Proof.
  intros Hs Hf Cp H. unfold exp_decay_stress in H. apply bind_ok in H as (qs & E & H). pose proof (exp_decay_l (Z.of_nat (sc_T sc)) hl) as L. rewrite E in L.
  destruct L as (Hh & Hl & D & Law). rewrite Nat2Z.id in Hl.
  assert (HT : (0 < sc_T sc)%nat). { destruct (Nat.eq_dec (sc_T sc) 0); [|lia]. rewrite stress_T0 in H by auto. discriminate. }
  assert (D' : positive_distribution qs) by (apply D; lia).
  destruct (stress_with _ _ _ _ _ _ _ _ Hs Hf Cp D' H) as (q & st & A1 & A2 & A3 & A4 & A5). exists q, qs, st. rewrite Hl in Law. auto 12.
Qed.

Lemma kernel_stress_l argsort w sc focus p bw tg conf dm o : sorts Rle 0 argsort -> frame_ok sc -> clean p ->
  kernel_focus_stress argsort w sc focus p bw tg conf dm = Ok o ->
  List.length focus = sc_T sc /\
  exists q qs st, in_force p (sc_T sc) q /\ measures_book (so_nom o) w sc (sc_X sc) q conf dm /\
    List.length qs = sc_T sc /\ positive_distribution qs /\
    (let t := match tg with Some t => t | None => last focus 0 end in
     forall i j, (i < sc_T sc)%nat -> (j < sc_T sc)%nat -> Rabs (nth i focus 0 - t) <= Rabs (nth j focus 0 - t) -> nth j qs 0 <= nth i qs 0) /\
    so_stress o = Some st /\ measures_book st w sc (sc_X sc) qs conf dm /\ so_kl o = Some (kl_divergence qs q).
Proof.
  intros Hs Hf Cp H. unfold kernel_focus_stress in H. apply guard_ok in H as [Hl H]. apply Nat.eqb_eq in Hl. apply bind_ok in H as (qs & E & H).
  pose proof (kernel_dist_l _ _ _ _ _ E) as D. destruct (stress_with _ _ _ _ _ _ _ _ Hs Hf Cp D H) as (q & st & A1 & A2 & A3 & A4 & A5).
  split; auto. exists q, qs, st. split; auto. split; auto. split.
  { destruct (kernel_mono_l _ _ _ _ _ _ 0 0 E eq_refl) as [L _]. congruence. }
  split; auto. split; [|auto]. cbv zeta. intros i j Hi Hj Ha. destruct (kernel_mono_l _ _ _ _ _ _ i j E eq_refl) as [_ L]. apply L; auto; congruence.
Qed.

Lemma rel_entropy_kl T q p : (forall s, (s < T)%nat -> 0 < q s) -> List.length p = T -> rel_entropy (map q (seq 0 T)) p = kl T q (of_list p).
Proof.
  intros Hq Hl. unfold rel_entropy, kl. rewrite (rsum_map2_sumn _ (map q (seq 0 T)) p 0 0 T); [|rewrite map_length, seq_length; auto|auto].
  apply sumn_ext. intros s Hs. rewrite nth_map_seq by auto. unfold of_list. destruct (Req_EM_T (q s) 0) as [e|]; [|reflexivity]. specialize (Hq s Hs). lra.
Qed.

Lemma pooling_stress_l argsort w sc minimize l A G method q conf dm o : frame_ok sc -> sound minimize -> has_ones (List.length l) A ->
  entropy_pooling minimize l A G method = Ok q -> rsum l = 1 ->
  (forall x, In x l -> / 10 ^ 16 <= x) -> (forall s, (s < List.length l)%nat -> / 10 ^ 16 <= q s) ->
  entropy_pooling_stress argsort w sc (map q (seq 0 (List.length l))) (Some l) conf dm = Ok o ->
  exists d, so_kl o = Some d /\ d = kl (List.length l) q (of_list l) /\ obeys (List.length l) A (opt_rows G) q /\
    forall q', obeys (List.length l) A (opt_rows G) q' -> d <= kl (List.length l) q' (of_list l).
Proof.
  intros Hf So Ho E S1 Hm Hq H. unfold entropy_pooling_stress in H.
  assert (Big : exp (-700) < / 10 ^ 16).
  { assert (E7 : exp (-700) = / exp 700). { replace (-700) with (- (700)) by lra. apply exp_Ropp. }
    rewrite E7. apply Rinv_lt_contravar; [apply Rmult_lt_0_compat; [lra|apply exp_pos]|].
    assert (H2 : 2 < exp 1). { pose proof (exp_ineq1 1). lra. }
    assert (Hp : forall n, 2 ^ n <= exp (INR n)). { induction n as [|n IH]; [simpl; rewrite exp_0; lra|]. rewrite S_INR, exp_plus. cbn [pow]. pose proof (exp_pos (INR n)). nra. }
    specialize (Hp 60%nat). assert (exp (INR 60) < exp 700). { apply exp_increasing. rewrite INR_IZR_INZ. apply IZR_lt. reflexivity. }
    assert (10 ^ 16 < 2 ^ 60). { rewrite !pow_IZR. apply IZR_lt. reflexivity. } lra. }
  pose proof (ep_closest_l _ _ _ _ _ _ So E Ho) as Cl. destruct Cl as [O M]. { intros s Hs. specialize (Hq s Hs). lra. }
  destruct O as ((P1 & P2) & O2). assert (ET : List.length l = sc_T sc).
  { destruct (stress_inv _ _ _ _ _ _ _ _ _ Hf H) as (_ & _ & _ & pn & Hp & _). assert (U : usable (Some l) (sc_T sc)) by (apply resolve_iff; eauto). apply U. }
  set (qs := map q (seq 0 (List.length l))) in *.
  assert (Hp1 : forall s, (s < List.length l)%nat -> 0 < q s). { intros s Hs. specialize (Hq s Hs). pose proof eps_pos. unfold kl_eps in *. lra. }
  assert (D : positive_distribution qs).
  { split; [|unfold qs; rewrite rsum_seq0; exact P2]. intros x Hx. unfold qs in Hx. apply in_map_iff in Hx as (s & <- & Hs). apply in_seq in Hs. apply Hp1. lia. }
  destruct (positive_clean qs D) as [C EQ]. assert (Cl : clean (Some l)) by (intros l0 El; injection El as <-; auto).
  destruct (stress_inv _ _ _ _ _ _ _ _ _ Hf H) as (_ & _ & _ & pn & Hp & _ & H2). destruct H2 as (X & qs' & _ & Hqs & ->); [left; discriminate|].
  destruct (resolve_in_force _ _ _ Cl Hp) as [I V]. destruct (resolve_in_force _ _ _ C Hqs) as [I' V']. cbn in I, I'. rewrite EQ in I'. subst qs'.
  assert (pn = l). { rewrite I, S1. rewrite <- (map_id l) at 2. apply map_ext. intros; field. } clear I; subst pn.
  exists (kl_divergence qs l). split; [reflexivity|].
  assert (K : kl_divergence qs l = kl (List.length l) q (of_list l)).
  { rewrite kl_exact; [apply rel_entropy_kl; auto| |exact Hm]. intros x Hx. unfold qs in Hx. apply in_map_iff in Hx as (s & <- & Hs). apply in_seq in Hs. apply Hq. lia. }
  split; [exact K|]. split; [split; [split; auto|exact O2]|]. intros q' O'. rewrite K. apply M. exact O'.
Qed.

(** ** performance_report *)
Lemma nodup_labels_iff l : nodup_labels l = true <-> NoDup l.
Proof.
  induction l as [|a t IH]; cbn [nodup_labels]; [split; constructor|]. rewrite andb_true_iff, IH, negb_true_iff. split.
  - intros [H1 H2]. constructor; auto. intros Hin. apply mem_in in Hin. congruence.
  - intros H. inversion H; subst. split; auto. apply not_true_is_false. intros E. apply mem_in in E. auto.
Qed.
Lemma reindexed_ok idx W cols n V : reindexed idx W cols = Ok (n, V) -> (cols <> Some idx -> cols <> None -> NoDup idx) /\
  n = match cols with Some c => List.length c | None => List.length idx end /\
  forall i m, (i < n)%nat -> V i m = match cols with
                      | Some c => if list_eq_dec label_dec idx c then Some (W i m) else match index_of (nth i c (LInt 0)) idx with Some k => Some (W k m) | None => None end
                      | None => Some (W i m) end.
Proof.
  unfold reindexed, reindex. destruct cols as [c|]; [destruct (list_eq_dec label_dec idx c) as [e|ne]|].
  - intros H. injection H as <- <-. subst c. split; [congruence|]. auto.
  - intros H. apply bind_ok in H as (V' & H1 & H). apply guard_ok in H1 as [N H1]. injection H1 as <-. injection H as <- <-. apply nodup_labels_iff in N.
    split; auto. split; auto. intros i m Hi. rewrite (nth_error_nth' c (LInt 0) Hi). reflexivity.
  - intros H. injection H as <- <-. split; [congruence|]. auto.
Qed.
Lemma reindexed_total idx W cols : (cols <> Some idx -> cols <> None -> NoDup idx) -> exists n V, reindexed idx W cols = Ok (n, V).
Proof.
  unfold reindexed, reindex. destruct cols as [c|]; [destruct (list_eq_dec label_dec idx c) as [e|ne]|]; eauto.
  intros H. assert (N : nodup_labels idx = true) by (apply nodup_labels_iff, H; congruence). rewrite N. cbn [guard bind]. eauto.
Qed.
Lemma no_nan_iff n V : no_nan n V = true <-> forall i, (i < n)%nat -> exists x, V i 0%nat = Some x.
Proof.
  unfold no_nan. rewrite forallb_forall. split.
  - intros H i Hi. specialize (H i). rewrite in_seq in H. specialize (H (conj (Nat.le_0_l _) Hi)). destruct (V i 0%nat); [eauto|discriminate].
  - intros H i Hi. apply in_seq in Hi. destruct (H i) as (x & ->); [lia|reflexivity].
Qed.

(** Holdings found by [reindex], when every label is there. *)
Lemma reindexed_holding w idx W cols n V : labels_of w = Some idx -> NoDup idx -> (forall k m, W k m = wentry w k m) ->
  reindexed idx W cols = Ok (n, V) -> forall i m x, (i < n)%nat -> V i m = Some x -> holding w cols i m x.
Proof.
  intros L N EW H i m x Hi Hx. destruct (reindexed_ok _ _ _ _ _ H) as (_ & En & EV). rewrite EV in Hx by auto. unfold holding. rewrite L.
  destruct cols as [c|]; [|injection Hx as <-; apply EW].
  destruct (list_eq_dec label_dec idx c) as [e|ne].
  - injection Hx as <-. subst c. exists (nth i idx (LInt 0)), i. rewrite En in Hi. split; [apply nth_error_nth'; auto|]. split; [|apply EW].
    apply index_first, index_of_nodup; auto. apply nth_error_nth'; auto.
  - destruct (index_of (nth i c (LInt 0)) idx) as [k|] eqn:K; [|discriminate]. injection Hx as <-. exists (nth i c (LInt 0)), k. rewrite En in Hi.
    split; [apply nth_error_nth'; auto|]. split; [apply index_first; auto|apply EW].
Qed.

Lemma single_holding w sc n v : frame_ok sc -> distinct_labels w -> single_weights w (sc_cols sc) = Ok (n, v) -> n = sc_N sc ->
  forall i, (i < sc_N sc)%nat -> holding w (sc_cols sc) i 0 (v i).
Proof.
  intros Hf D H En i Hi. assert (NM : forall w', labels_of w' = None -> forall x, x = wentry w' i 0 -> holding w' (sc_cols sc) i 0 x).
  { intros w' L x E. unfold holding. rewrite L. destruct (sc_cols sc); exact E. }
  destruct w as [idx cs W|idx nm u|d|k u|k m W|]; cbn [single_weights] in H; try discriminate.
  - apply guard_ok in H as [_ H]. apply bind_ok in H as ([n' V] & R & H). apply guard_ok in H as [NN H]. injection H as <- <-. rewrite no_nan_iff in NN.
    destruct (NN i) as (x & Ex); [lia|]. rewrite Ex. cbn [some_or_0]. eapply (reindexed_holding (WtFrame idx cs W) idx W); eauto; try (apply D; reflexivity); lia.
  - apply bind_ok in H as ([n' V] & R & H). apply guard_ok in H as [NN H]. injection H as <- <-. rewrite no_nan_iff in NN.
    destruct (NN i) as (x & Ex); [lia|]. rewrite Ex. cbn [some_or_0]. eapply (reindexed_holding (WtSeries idx nm u) idx); eauto; try (apply D; reflexivity); lia.
  - injection H as <- <-. apply NM; reflexivity.
  - apply guard_ok in H as [_ H]. injection H as <- <-. apply NM; reflexivity.
Qed.

Lemma single_report_core argsort T N X p w conf dm : valid p T -> 0 < conf < 1 ->
  single_report argsort T N X p w conf dm =
  let x := map (fun t => dot N (X t) w) (seq 0 T) in
  let m := expect p x (fun y => y) in
  match dm with DOther => Err ValueError | _ =>
    Ok (Report m (sqrt (expect p x (fun y => (y - m) ^ 2))) (- var_pnl argsort (1 - conf) (net_of dm p x) p) (- cvar_pnl argsort (1 - conf) (net_of dm p x) p)
          (compute_effective_number_scenarios p) (py_round (conf * 100))) end.
Proof.
  intros V Hc. pose proof (metrics_of_core argsort T N 1 X (fun i _ => w i) p conf dm V Hc) as M. unfold metrics_of in M. unfold single_report.
  destruct (MomModel.estimate_sample_moments T N X (List.length p) (of_list p) MomModel.Arr MomModel.Arr) as [[[mu cov] lb]|e] eqn:EM; cbn [bind] in *.
  2:{ destruct dm; cbn; congruence. }
  destruct (portfolio_var argsort (cols_of N 1 (fun i _ => w i)) (rows_of T N X) (Some p) (Some conf) dm) as [vr|e]; cbn [bind] in *; [|destruct dm; cbn; congruence].
  destruct (portfolio_cvar argsort (cols_of N 1 (fun i _ => w i)) (rows_of T N X) (Some p) (Some conf) dm) as [cv|e]; cbn [bind] in *; [|destruct dm; cbn; congruence].
  assert (Q : sqrt (quad N cov w) = sqrt (sumn N (fun k => sumn N (fun l => w k * cov k l * w l)))).
  { f_equal. unfold quad. apply sumn_ext. intros i Hi. apply sumn_ext. intros; ring. }
  cbv zeta. unfold metrics_core, col in M. cbn [seq map] in M.
  destruct dm as [|b|]; [| |discriminate]; apply (f_equal (fun r => match r with Ok y => (nth 0 (m_mean y) 0, nth 0 (m_sd y) 0, nth 0 (m_var y) 0, nth 0 (m_cvar y) 0) | Err _ => (0, 0, 0, 0) end)) in M;
    cbn [m_mean m_sd m_var m_cvar nth] in M; injection M as M1 M2 M3 M4; rewrite Q, M2, M3, M4; unfold dot at 1; rewrite M1; reflexivity.
Qed.

Lemma performance_inv argsort w sc p conf dm r : performance_report argsort w sc p conf dm = Ok r ->
  0 < conf < 1 /\ dm <> DOther /\ exists q v, resolve_probs p (sc_T sc) = Ok q /\ single_weights w (sc_cols sc) = Ok (sc_N sc, v) /\
  single_report argsort (sc_T sc) (sc_N sc) (sc_X sc) q v conf dm = Ok r.
Proof.
  intros H. unfold performance_report in H. apply guard_ok in H as [Hc H]. apply andb_true_iff in Hc as [H0 H1]. apply Rltb_true in H0. apply Rltb_true in H1.
  apply bind_ok in H as (q & Hq & H). apply bind_ok in H as ([n v] & Hw & H). apply guard_ok in H as [Hn H]. apply Nat.eqb_eq in Hn. subst n.
  assert (Hconf : 0 < conf < 1) by lra. split; auto. split; [|eauto].
  intros ->. rewrite single_report_core in H by (auto; eapply resolve_valid; eauto). discriminate.
Qed.

Lemma performance_means_l argsort w sc p conf dm r : sorts Rle 0 argsort -> frame_ok sc -> distinct_labels w -> clean p ->
  performance_report argsort w sc p conf dm = Ok r ->
  exists q x, in_force p (sc_T sc) q /\ prob_vector q (sc_T sc) /\ pnl_of w sc (sc_X sc) 0 x /\
    measured q x conf dm (rp_mean r) (rp_sd r) (rp_var r) (rp_cvar r) /\
    rp_ens r = exp (- rsum (map (fun a => if Rlt_dec 0 a then a * ln a else 0) q)) /\ rp_pct r = py_round (conf * 100).
Proof.
  intros Hs Hf D C H. destruct (performance_inv _ _ _ _ _ _ _ H) as (Hc & Hd & q & v & Hq & Hw & Hr).
  destruct (resolve_in_force _ _ _ C Hq) as [I V]. pose proof (resolve_valid _ _ _ Hq) as VV.
  rewrite single_report_core in Hr by auto. cbv zeta in Hr.
  set (x := map (fun t => dot (sc_N sc) (sc_X sc t) v) (seq 0 (sc_T sc))) in *.
  pose proof (core_reports argsort (sc_T sc) 1 (fun t _ => dot (sc_N sc) (sc_X sc t) v) q conf dm Hs V Hc) as (_ & _ & _ & _ & R & _). specialize (R 0%nat Nat.lt_0_1).
  unfold metrics_core in R. cbn [m_mean m_sd m_var m_cvar seq map nth] in R.
  change (col (sc_T sc) (fun t _ => dot (sc_N sc) (sc_X sc t) v) 0) with x in R.
  exists q, x. split; auto. split; auto. split.
  { exists v. split; [|reflexivity]. intros i Hi. apply (single_holding w sc (sc_N sc) v); auto. }
  destruct dm as [|b|]; [| |congruence]; injection Hr as <-; cbn [rp_mean rp_sd rp_var rp_cvar rp_ens rp_pct]; (split; [exact R|]); split; auto; apply ens_spec.
Qed.

Lemma performance_accepts_l argsort w sc p conf dm : frame_ok sc -> distinct_labels w ->
  (exists r, performance_report argsort w sc p conf dm = Ok r) <-> (0 < conf < 1 /\ dm <> DOther /\ usable p (sc_T sc) /\ single w /\ covers w sc).
Proof.
  intros Hf D. split.
  - intros (r & H). destruct (performance_inv _ _ _ _ _ _ _ H) as (Hc & Hd & q & v & Hq & Hw & _). split; auto. split; auto. split; [apply resolve_iff; eauto|].
    assert (K : forall w' idx W n V, labels_of w' = Some idx -> NoDup idx -> reindexed idx W (sc_cols sc) = Ok (n, V) -> (forall i, (i < n)%nat -> exists y, V i 0%nat = Some y) -> n = sc_N sc -> covers w' sc).
    { intros w' idx W n V L N R NN En. destruct (reindexed_ok _ _ _ _ _ R) as (_ & E & EV). unfold covers. rewrite L. destruct (sc_cols sc) as [c|].
      - intros l Hl. apply (In_nth _ _ (LInt 0)) in Hl as (i & Hi & <-). destruct (NN i) as (y & Ey); [lia|]. rewrite EV in Ey by lia.
        destruct (list_eq_dec label_dec idx c); [subst; apply nth_In; auto|]. destruct (index_of (nth i c (LInt 0)) idx) eqn:K; [|discriminate].
        apply index_first in K as [K _]. eapply nth_error_In; eauto.
      - rewrite (labels_rows _ _ L). congruence. }
    destruct w as [idx cs W|idx nm u|d|k u|k m W|]; cbn [single_weights] in Hw; try discriminate.
    + apply guard_ok in Hw as [H1 Hw]. apply Nat.eqb_eq in H1. apply bind_ok in Hw as ([n' V] & R & Hw). apply guard_ok in Hw as [NN Hw]. injection Hw as E1 _. rewrite no_nan_iff in NN.
      split; [exact H1|]. eapply K; eauto. reflexivity. apply D. reflexivity.
    + apply bind_ok in Hw as ([n' V] & R & Hw). apply guard_ok in Hw as [NN Hw]. injection Hw as E1 _. rewrite no_nan_iff in NN.
      split; [exact I|]. eapply K; eauto. reflexivity. apply D. reflexivity.
    + injection Hw as E1 _. split; [exact I|]. unfold covers. cbn. destruct (sc_cols sc); auto.
    + apply guard_ok in Hw as [H1 Hw]. apply Nat.eqb_eq in H1. injection Hw as E1 _. split; [exact H1|]. unfold covers. cbn. destruct (sc_cols sc); auto.
  - intros (Hc & Hd & Hu & Hs & Hcov). apply resolve_iff in Hu as (q & Hq). pose proof (resolve_valid _ _ _ Hq) as V.
    assert (HW : exists v, single_weights w (sc_cols sc) = Ok (sc_N sc, v)).
    { assert (K : forall w' idx W, labels_of w' = Some idx -> NoDup idx -> covers w' sc -> exists V, reindexed idx W (sc_cols sc) = Ok (sc_N sc, V) /\ no_nan (sc_N sc) V = true).
      { intros w' idx W L N Cv. destruct (reindexed_total idx W (sc_cols sc)) as (n & V' & R); auto. destruct (reindexed_ok _ _ _ _ _ R) as (_ & E & EV). unfold covers in Cv. rewrite L in Cv.
        assert (En : n = sc_N sc). { destruct (sc_cols sc) as [c|] eqn:C; [rewrite E; apply Hf; auto|]. rewrite (labels_rows _ _ L) in Cv. congruence. }
        subst n. exists V'. split; [rewrite R, En; reflexivity|]. apply no_nan_iff. intros i Hi. rewrite EV by lia. destruct (sc_cols sc) as [c|] eqn:C; eauto.
        destruct (list_eq_dec label_dec idx c); eauto. assert (In (nth i c (LInt 0)) idx) by (apply Cv, nth_In; rewrite (Hf c C); auto).
        destruct (index_of (nth i c (LInt 0)) idx) eqn:K; eauto. apply index_none in K. tauto. }
      destruct w as [idx cs W|idx nm u|d|k u|k m W|]; cbn [single_weights]; try (destruct Hs; fail).
      - cbn [single] in Hs. rewrite Hs. cbn [Nat.eqb guard]. destruct (K (WtFrame idx cs W) idx W) as (V' & R & NN); try (apply D; reflexivity); auto. rewrite R. cbn [bind]. rewrite NN. cbn [guard]. eauto.
      - destruct (K (WtSeries idx nm u) idx (fun i _ => u i)) as (V' & R & NN); try (apply D; reflexivity); auto. rewrite R. cbn [bind]. rewrite NN. cbn [guard]. eauto.
      - unfold covers in Hcov. cbn in Hcov. exists u. destruct (sc_cols sc); rewrite Hcov; reflexivity.
      - cbn [single] in Hs. subst m. cbn [Nat.eqb guard]. unfold covers in Hcov. cbn in Hcov. exists (fun i => W i 0%nat). destruct (sc_cols sc); rewrite Hcov; reflexivity. }
    destruct HW as (v & HW). unfold performance_report. rewrite (proj2 (Rltb_true 0 conf)), (proj2 (Rltb_true conf 1)) by lra. cbn [andb guard]. rewrite Hq. cbn [bind]. rewrite HW. cbn [bind]. rewrite Nat.eqb_refl. cbn [guard].
    rewrite single_report_core by auto. cbv zeta. destruct dm; [eauto|eauto|congruence].
Qed.
