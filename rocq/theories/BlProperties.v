(** C38 and companions: Black-Litterman. *)
From Coq Require Import Psatz ZArith.
From Verif Require Import RBase QpBase OptModel OptSpec ExistSpec OptProofs OptProofs7 OptProofs8 NiwModel BlModel BlSpec BlProofs BlProofs2 BlProofs3 BlProofs4 LinLib.
From Verif Require MomModel MomSpec MomProofs MomProofs3.
Open Scope R_scope.
Open Scope list_scope.

(** ** An ideal linear solver exists, so the theorems below are not vacuous. *)
Theorem bl_solver_exists : exists ls, exact_solve ls /\ complete_solve ls.
Proof.
  exists best_solve. split; [intros k A m B X H; apply best_solve_exact' with (1 := H)|intros k A m B H; apply best_solve_complete'; exact H].
Qed.

(** ** No views: the prior comes back unchanged. *)
Theorem bl_no_views ls a r n sigma : symmetric n sigma -> m_rows (a_cov a) = n -> m_at (a_cov a) = sigma ->
  a_views a = MNone \/ a_views a = MDict [] -> black_litterman ls a = Ok r ->
  (forall i, (i < n)%nat -> b_mean r i = prior_mean_of a i) /\ b_cov r = sigma.
Proof.
  intros HS Hn Hs Hv H. apply bl_ok in H. cbn zeta in H. destruct H as (_ & _ & _ & pi & after & d & vs & cf & om & B1 & B2 & B3 & _ & _ & B6 & _).
  assert (E : d = []) by (destruct Hv as [E | E]; rewrite E in B2; simpl in B2; congruence). subst d. simpl in B3. injection B3 as <-.
  unfold compute_posterior in B6. simpl in B6. injection B6 as E1 E2 E3. subst n sigma. split.
  - intros i Hi. rewrite <- E2. eapply bl_prior_mean; eauto.
  - rewrite <- E3. apply bl_sigma_sym; auto.
Qed.

(** ** The posterior mean is the best compromise between the prior and the views. *)
Theorem bl_mean_optimal ls a r n sigma d idx Si Oi :
  exact_solve ls -> bl_setting a n sigma d idx -> psd n sigma -> 0 < a_tau a -> black_litterman ls a = Ok r ->
  let k := List.length d in
  symmetric k (b_om r) -> psd k (b_om r) -> MomSpec.is_inverse n sigma Si -> MomSpec.is_inverse k (b_om r) Oi ->
  let loss := bl_loss n Si (a_tau a) (prior_mean_of a) k Oi (view_error idx d) in
  (forall m, loss (b_mean r) <= loss m) /\
  (forall m, positive_definite n sigma -> loss m <= loss (b_mean r) -> forall i, (i < n)%nat -> m i = b_mean r i).
Proof.
  intros Hls HS Hp Ht HR k Hos Hop HSi HOi loss. destruct (call_shape ls a r n sigma d idx Hls HS HR) as (x & Y & _ & _ & _ & HX & _ & HM & _).
  set (P := fun v => key_row idx (nth_key d v)) in *. set (Q := nth_target d).
  assert (EL : forall m m', (forall i, (i < n)%nat -> m i = m' i) -> loss m = bl_loss n Si (a_tau a) (prior_mean_of a) k Oi (fun m a => Q a - dot n (P a) m) m').
  { intros m m' E. unfold loss, bl_loss. f_equal.
    - f_equal. apply quad_ext; auto. intros i Hi. rewrite E by auto. reflexivity.
    - apply quad_ext; auto. intros v Hv. unfold view_error, Q. f_equal. rewrite (dot_ext n (P v) m' (P v) m) by (intros; auto; symmetry; auto). symmetry. apply (P_value a n sigma d idx HS v m Hv). }
  assert (HX' : forall v, (v < k)%nat -> mv k (bl_A n (fun i j => a_tau a * sigma i j) (b_om r) P) x v = Q v - dot n (P v) (prior_mean_of a)).
  { intros v Hv. unfold k in *. rewrite HX by auto. unfold view_error, Q. f_equal. symmetry. apply (P_value a n sigma d idx HS v _ Hv). }
  pose proof (st_sym _ _ _ _ _ HS) as Hsym. set (mu := fun i => prior_mean_of a i + mv n (fun i j => a_tau a * sigma i j) (pt k P x) i).
  assert (Hmu : forall i, (i < n)%nat -> b_mean r i = mu i) by (intros i Hi; rewrite HM by auto; reflexivity).
  split.
  - intros m. rewrite (EL (b_mean r) mu Hmu), (EL m m) by auto. apply (bl_loss_min n k sigma (b_om r) P (a_tau a) (prior_mean_of a) Q x Si Oi); auto.
  - intros m Hpd H i Hi. rewrite Hmu by auto. rewrite (EL (b_mean r) mu Hmu), (EL m m) in H by auto.
    apply (bl_loss_unique n k sigma (b_om r) P (a_tau a) (prior_mean_of a) Q x Si Oi); auto.
Qed.

(** The views are missed by no more than under the prior, and strictly less is lost the further the mean moved. *)
Theorem bl_misfit_decreases ls a r n sigma d idx Si Oi :
  exact_solve ls -> bl_setting a n sigma d idx -> psd n sigma -> 0 < a_tau a -> black_litterman ls a = Ok r ->
  let k := List.length d in
  symmetric k (b_om r) -> psd k (b_om r) -> MomSpec.is_inverse n sigma Si -> MomSpec.is_inverse k (b_om r) Oi ->
  quad k Oi (view_error idx d (b_mean r)) + quad n Si (fun i => b_mean r i - prior_mean_of a i) / a_tau a <= quad k Oi (view_error idx d (prior_mean_of a)).
Proof.
  intros Hls HS Hp Ht HR k Hos Hop HSi HOi. destruct (bl_mean_optimal ls a r n sigma d idx Si Oi Hls HS Hp Ht HR Hos Hop HSi HOi) as [H _].
  specialize (H (prior_mean_of a)). unfold bl_loss in H. rewrite (quad_ext n Si Si (fun i => prior_mean_of a i - prior_mean_of a i) (fun _ => 0)) in H by (intros; auto; ring).
  assert (Z : quad n Si (fun _ => 0) = 0) by (unfold quad; apply sumn_0; intros; apply sumn_0; intros; ring). rewrite Z in H. unfold Rdiv in *. rewrite Rmult_0_l in H. fold k in H. lra.
Qed.

(** Views given with no uncertainty hold exactly. *)
Theorem bl_certain_views ls a r n sigma d idx :
  exact_solve ls -> bl_setting a n sigma d idx -> black_litterman ls a = Ok r ->
  (forall v w, (v < List.length d)%nat -> (w < List.length d)%nat -> b_om r v w = 0) ->
  forall v, (v < List.length d)%nat -> view_value idx (nth_key d v) (b_mean r) = nth_target d v.
Proof.
  intros Hls HS HR Hz v Hv. destruct (call_shape ls a r n sigma d idx Hls HS HR) as (x & Y & _ & _ & _ & HX & _ & HM & _).
  pose proof (P_value a n sigma d idx HS v) as PV. cbv beta in PV. specialize (HX v Hv). rewrite mv_bl_A in HX.
  rewrite <- PV by auto. rewrite (dot_ext n _ (b_mean r) (key_row idx (nth_key d v)) (fun i => prior_mean_of a i + mv n (fun i j => a_tau a * sigma i j) (pt (List.length d) (fun v => key_row idx (nth_key d v)) x) i)) by auto.
  rewrite dot_plus_r, PV by auto. unfold view_error in HX. assert (Z : mv (List.length d) (b_om r) x v = 0) by (unfold mv, dot; apply sumn_0; intros w Hw; rewrite Hz by auto; ring). lra.
Qed.

(** ** Omega *)
Theorem bl_omega ls a r n sigma d idx : exact_solve ls -> bl_setting a n sigma d idx -> black_litterman ls a = Ok r ->
  let var v := view_variance idx (nth_key d v) sigma in
  let k := List.length d in
  match a_omega a with
  | ONone => forall v w, (v < k)%nat -> (w < k)%nat -> b_om r v w = if (v =? w)%nat then a_tau a * var v else 0
  | OIdzorek => forall v w, (v < k)%nat -> (w < k)%nat -> b_om r v w =
      if (v =? w)%nat then let c := confidence_used (confidence_of (a_conf a) (nth_key d v) v) in
                          (1 - c) / c * ((if a_use_tau a then a_tau a else 1) * var v) else 0
  | OStr => False
  | OVec l => forall v w, (v < k)%nat -> (w < k)%nat -> b_om r v w = if (v =? w)%nat then nth v l 0 else 0
  | OMat _ _ M => forall v w, (v < k)%nat -> (w < k)%nat -> b_om r v w = M v w
  end.
Proof.
  intros Hls HS HR var k. pose proof HS as [E1 E2 E3 E4 E5 E6 E7]. pose proof (st_n a n sigma d idx HS) as En. apply bl_ok in HR. cbn zeta in HR. rewrite E1, E3 in HR.
  destruct HR as (_ & _ & _ & pi & after & d' & vs & cf & om & B1 & B2 & B3 & B4 & B5 & B6 & B7 & B8 & B9 & _).
  rewrite E5 in B2. injection B2 as <-. rewrite (bl_sigma_sym n sigma) in * by auto. rewrite <- En in B5, E4.
  pose proof (build_omega_entry _ a idx sigma d vs cf om E4 E7 E6 B3 B4 B5) as H. rewrite B9. unfold omega_entry in H.
  destruct (a_omega a); try (intros; apply H; auto).
  unfold build_omega in B5. rewrite map_length in B5. rewrite (mapM_length _ _ _ B3) in B5. destruct (Nat.eqb_spec (List.length d) 0) as [Z|_]; [destruct d; [congruence|discriminate]|discriminate].
Qed.

(** ** One view: the viewed quantity moves exactly the stated fraction of the way to its target. *)
Lemma one_view ls a r n sigma key val idx : exact_solve ls -> bl_setting a n sigma [(key, val)] idx -> black_litterman ls a = Ok r ->
  exists x, (a_tau a * view_variance idx key sigma + b_om r 0%nat 0%nat) * x = target_of val - view_value idx key (prior_mean_of a) /\
            view_value idx key (b_mean r) = view_value idx key (prior_mean_of a) + a_tau a * view_variance idx key sigma * x.
Proof.
  intros Hls HS HR. destruct (call_shape ls a r n sigma _ idx Hls HS HR) as (x & Y & _ & _ & _ & HX & _ & HM & _). simpl List.length in *.
  pose proof (P_value a n sigma _ idx HS 0%nat) as PV. simpl List.length in PV. cbv beta in PV. change (nth_key [(key, val)] 0) with key in PV.
  specialize (HX 0%nat ltac:(lia)). rewrite mv_bl_A in HX. change (nth_key [(key, val)] 0) with key in HX.
  set (P := fun v => key_row idx (nth_key [(key, val)] v)) in *.
  assert (HV : proper_key (bl_assets (a_cov a)) idx key) by (apply (st_proper _ _ _ _ _ HS key val); left; reflexivity).
  assert (EQ : forall i, pt 1 P x i = x 0%nat * key_row idx key i) by (intros i; unfold pt, P; simpl; change (nth_key [(key, val)] 0) with key; ring).
  assert (EV : dot n (key_row idx key) (mv n (fun i j => a_tau a * sigma i j) (pt 1 P x)) = a_tau a * view_variance idx key sigma * x 0%nat).
  { pose proof (st_n a n sigma _ idx HS) as En. rewrite <- (key_row_variance (bl_assets (a_cov a)) idx key sigma); [|rewrite En; apply (st_sym _ _ _ _ _ HS)|exact HV].
    rewrite En, quad_mv. rewrite (dot_ext n _ (mv n (fun i j => a_tau a * sigma i j) (pt 1 P x)) (key_row idx key) (fun i => a_tau a * x 0%nat * mv n sigma (key_row idx key) i)); auto.
    - rewrite dot_scale_r. ring.
    - intros i Hi. unfold mv, dot. rewrite <- sumn_scale. apply sumn_ext. intros j Hj. rewrite EQ. ring. }
  exists (x 0%nat). split.
  - rewrite EV in HX. unfold view_error, nth_target in HX. change (nth_key [(key, val)] 0) with key in HX. simpl in HX. rewrite <- HX. unfold mv, dot. simpl. ring.
  - rewrite <- (PV (b_mean r)) by lia. rewrite (dot_ext n _ (b_mean r) (key_row idx key) (fun i => prior_mean_of a i + mv n (fun i j => a_tau a * sigma i j) (pt 1 P x) i)) by auto.
    rewrite dot_plus_r, EV, PV by lia. reflexivity.
Qed.

Theorem bl_single_view_confidence ls a r n sigma key val idx : exact_solve ls -> bl_setting a n sigma [(key, val)] idx -> black_litterman ls a = Ok r ->
  0 < a_tau a -> 0 < view_variance idx key sigma -> a_omega a = OIdzorek -> a_use_tau a = true ->
  let c := confidence_used (confidence_of (a_conf a) key 0) in
  view_value idx key (b_mean r) = (1 - c) * view_value idx key (prior_mean_of a) + c * target_of val.
Proof.
  intros Hls HS HR Ht Hv HO HU c. pose proof (bl_omega ls a r n sigma _ idx Hls HS HR) as Hom. cbn zeta in Hom. rewrite HO in Hom. specialize (Hom 0%nat 0%nat ltac:(simpl; lia) ltac:(simpl; lia)).
  rewrite HU in Hom. change (nth_key [(key, val)] 0) with key in Hom. simpl (0 =? 0)%nat in Hom. cbv iota in Hom. fold c in Hom.
  destruct (one_view ls a r n sigma key val idx Hls HS HR) as (x & E1 & E2). rewrite Hom in E1. rewrite E2.
  pose proof (confidence_used_range (confidence_of (a_conf a) key 0)) as Hc. fold c in Hc. clearbody c. set (v := a_tau a * view_variance idx key sigma) in *.
  assert (v * x = c * (target_of val - view_value idx key (prior_mean_of a))). { rewrite <- E1. field. lra. } rewrite H. ring.
Qed.

(** The fraction of the way the view moves when the Idzorek rule is based on [Sigma] instead of [tau Sigma]. *)
Theorem bl_single_view_confidence_no_tau ls a r n sigma key val idx : exact_solve ls -> bl_setting a n sigma [(key, val)] idx -> black_litterman ls a = Ok r ->
  0 < a_tau a -> 0 < view_variance idx key sigma -> a_omega a = OIdzorek -> a_use_tau a = false ->
  let c := confidence_used (confidence_of (a_conf a) key 0) in
  let f := a_tau a * c / (a_tau a * c + (1 - c)) in
  view_value idx key (b_mean r) = (1 - f) * view_value idx key (prior_mean_of a) + f * target_of val.
Proof.
  intros Hls HS HR Ht Hv HO HU c f. pose proof (bl_omega ls a r n sigma _ idx Hls HS HR) as Hom. cbn zeta in Hom. rewrite HO in Hom. specialize (Hom 0%nat 0%nat ltac:(simpl; lia) ltac:(simpl; lia)).
  rewrite HU in Hom. change (nth_key [(key, val)] 0) with key in Hom. simpl (0 =? 0)%nat in Hom. cbv iota in Hom. fold c in Hom.
  destruct (one_view ls a r n sigma key val idx Hls HS HR) as (x & E1 & E2). rewrite Hom in E1. rewrite E2. unfold f. clear f.
  pose proof (confidence_used_range (confidence_of (a_conf a) key 0)) as Hc. fold c in Hc. clearbody c. set (w := view_variance idx key sigma) in *. set (t := a_tau a) in *. clearbody w t.
  assert (Hd : 0 < t * c + (1 - c)) by (pose proof (Rmult_lt_0_compat t c Ht ltac:(lra)); lra).
  assert (t * w * x = t * c / (t * c + (1 - c)) * (target_of val - view_value idx key (prior_mean_of a))). { rewrite <- E1. field. lra. } rewrite H. ring.
Qed.

Theorem bl_single_view_default ls a r n sigma key val idx : exact_solve ls -> bl_setting a n sigma [(key, val)] idx -> black_litterman ls a = Ok r ->
  0 < a_tau a -> 0 < view_variance idx key sigma -> a_omega a = ONone ->
  view_value idx key (b_mean r) = (view_value idx key (prior_mean_of a) + target_of val) / 2.
Proof.
  intros Hls HS HR Ht Hv HO. pose proof (bl_omega ls a r n sigma _ idx Hls HS HR) as Hom. cbn zeta in Hom. rewrite HO in Hom. specialize (Hom 0%nat 0%nat ltac:(simpl; lia) ltac:(simpl; lia)).
  change (nth_key [(key, val)] 0) with key in Hom. simpl (0 =? 0)%nat in Hom. cbv iota in Hom.
  destruct (one_view ls a r n sigma key val idx Hls HS HR) as (x & E1 & E2). rewrite Hom in E1. rewrite E2. lra.
Qed.

(** ** The posterior covariance *)
Theorem bl_cov_symmetric ls a r n sigma d idx : exact_solve ls -> bl_setting a n sigma d idx -> black_litterman ls a = Ok r -> symmetric n (b_cov r).
Proof.
  intros Hls HS HR i j Hi Hj. destruct (call_shape ls a r n sigma d idx Hls HS HR) as (x & Y & _ & _ & _ & _ & _ & _ & HC). rewrite !HC by auto. ring.
Qed.

(** It lies between the prior covariance and the prior covariance plus all of the estimation uncertainty. *)
Theorem bl_cov_between ls a r n sigma d idx : exact_solve ls -> bl_setting a n sigma d idx -> psd n sigma -> 0 <= a_tau a -> black_litterman ls a = Ok r ->
  symmetric (List.length d) (b_om r) -> psd (List.length d) (b_om r) ->
  forall w, quad n sigma w <= quad n (b_cov r) w <= (1 + a_tau a) * quad n sigma w.
Proof.
  intros Hls HS Hp Ht HR Ho Hop w. destruct (call_cov ls a r n sigma d idx Hls HS HR Ho) as (Y & HY & HC).
  set (ts := fun i j => a_tau a * sigma i j) in *. set (k := List.length d) in *. set (P := fun v => key_row idx (nth_key d v)) in *.
  assert (Hts : symmetric n ts) by (intros i j Hi Hj; unfold ts; rewrite (st_sym _ _ _ _ _ HS i j) by auto; reflexivity).
  assert (Htp : psd n ts) by (intros y; unfold ts; rewrite quad_scale; apply Rmult_le_pos; auto).
  rewrite (quad_ext n (b_cov r) (fun i j => sigma i j + (ts i j - bl_mid n k ts P Y i j)) w w) by auto.
  rewrite (quad_plus n sigma (fun i j => ts i j - bl_mid n k ts P Y i j)). rewrite (quad_left n k ts (b_om r) P Y Hts HY w) at 1.
  pose proof (Htp (fun i => w i - pt k P (mv n Y w) i)). pose proof (Hop (mv n Y w)). split; [lra|].
  rewrite (quad_ext n (fun i j => ts i j - bl_mid n k ts P Y i j) (fun i j => ts i j + (-1) * bl_mid n k ts P Y i j) w w) by (intros; auto; ring).
  rewrite (quad_plus n ts (fun i j => (-1) * bl_mid n k ts P Y i j)), quad_scale, (quad_mid n k ts (b_om r) P Y Hts HY). rewrite quad_bl_A.
  pose proof (Htp (pt k P (mv n Y w))). unfold ts at 1. rewrite quad_scale. lra.
Qed.

(** What it adds to the prior covariance is the inverse of the information in the prior mean and the views. *)
Theorem bl_cov_information ls a r n sigma d idx Si Oi : exact_solve ls -> bl_setting a n sigma d idx -> 0 < a_tau a -> black_litterman ls a = Ok r ->
  symmetric (List.length d) (b_om r) -> MomSpec.is_inverse n sigma Si -> MomSpec.is_inverse (List.length d) (b_om r) Oi ->
  exists coef, (forall v mu, (v < List.length d)%nat -> dot n (coef v) mu = view_value idx (nth_key d v) mu) /\
  is_information_inverse n Si (a_tau a) (List.length d) Oi coef (fun i j => b_cov r i j - sigma i j).
Proof.
  intros Hls HS Ht HR Ho HSi HOi. destruct (call_cov ls a r n sigma d idx Hls HS HR Ho) as (Y & HY & HC). exists (fun v => key_row idx (nth_key d v)).
  split; [intros v mu Hv; apply (P_value a n sigma d idx HS v mu Hv)|].
  set (ts := fun i j => a_tau a * sigma i j) in *. set (k := List.length d) in *. set (P := fun v => key_row idx (nth_key d v)) in *. intros w i Hi.
  set (u := mv n Y w). set (q := fun j => w j - pt k P u j).
  assert (EM : forall l, (l < n)%nat -> mv n (fun i j => b_cov r i j - sigma i j) w l = a_tau a * mv n sigma q l).
  { intros l Hl. rewrite (mv_ext' n (fun i j => b_cov r i j - sigma i j) (fun i j => ts i j - bl_mid n k ts P Y i j) w w l); [|intros j Hj; rewrite HC by assumption; unfold ts; ring|auto].
    transitivity (mv n ts w l - mv n (bl_mid n k ts P Y) w l); [unfold mv, dot; rewrite <- sumn_minus; apply sumn_ext; intros; ring|].
    rewrite (mv_mid n k ts P Y) by auto. unfold q, u, mv, dot, ts. rewrite <- sumn_minus, <- sumn_scale. apply sumn_ext. intros; ring. }
  assert (E1 : mv n Si (mv n (fun i j => b_cov r i j - sigma i j) w) i = a_tau a * q i).
  { rewrite (mv_ext' n Si Si _ (fun l => a_tau a * mv n sigma q l) i) by auto. rewrite MomProofs3.mv_scale. f_equal. apply (MomProofs.mv_inverse n Si sigma q i); auto. apply inv_swap; auto. }
  assert (E2 : forall b, (b < k)%nat -> dot n (P b) (mv n (fun i j => b_cov r i j - sigma i j) w) = mv k (b_om r) u b).
  { intros b Hb. rewrite (dot_ext n (P b) _ (P b) (fun l => mv n ts w l - mv n ts (pt k P u) l)); auto.
    - rewrite dot_minus_r. pose proof (Y_solves n k ts (b_om r) P Y HY w b Hb) as ES. rewrite mv_bl_A in ES. change (fun b0 => mv n Y w b0) with u in ES. lra.
    - intros l Hl. rewrite EM by auto. unfold q, mv, dot, ts. rewrite <- sumn_scale, <- sumn_minus. apply sumn_ext. intros; ring. }
  rewrite E1. rewrite (sumn_ext k _ (fun v => P v i * u v)).
  - unfold q, pt. field. lra.
  - intros v Hv. rewrite (mv_ext' k Oi Oi _ (mv k (b_om r) u) v) by auto. rewrite (MomProofs.mv_inverse k Oi (b_om r) u v); auto. apply inv_swap; auto.
Qed.

(** ** Which requests are answered *)
Theorem bl_accepts ls a n sigma d idx : complete_solve ls -> bl_setting a n sigma d idx -> psd n sigma -> 0 < a_tau a -> 0 < a_delta a ->
  m_nd (a_cov a) = 2%nat -> m_cols (a_cov a) = n -> prior_given a n -> conf_shaped (a_conf a) (List.length d) -> single_targets d ->
  omega_usable a idx sigma d -> exists r, black_litterman ls a = Ok r.
Proof. exact (bl_accepts_l ls a n sigma d idx). Qed.

Theorem bl_errors ls a e : black_litterman ls a = Err e -> e = ValueError \/ e = LinAlgError.
Proof. exact (bl_errors_l ls a e). Qed.

Theorem bl_rejects ls a d : vec_to_dict (bl_assets (a_cov a)) (a_views a) = Ok d ->
  (m_nd (a_cov a) <> 2%nat \/ m_cols (a_cov a) <> m_rows (a_cov a)
   \/ a_delta a <= 0
   \/ (a_pi a = None /\ a_weights a = None /\ a_mean a = None)
   \/ (a_pi a = None /\ exists w, a_weights a = Some w /\ List.length (w_vals w) <> m_rows (a_cov a))
   \/ (exists k l, In (k, VSeq l) d /\ List.length l <> 1%nat)
   \/ (exists l v, In (KOne l, v) d /\ forall i, bl_index (bl_assets (a_cov a)) l <> Ok i)
   \/ (exists l v, In (KTup l, v) d /\ List.length l <> 2%nat)
   \/ (exists l, a_conf a = CArr l /\ List.length l <> List.length d)
   \/ (d <> [] /\ a_omega a = OIdzorek /\ a_conf a = CNone)
   \/ (d <> [] /\ exists l, a_omega a = OVec l /\ List.length l <> List.length d)
   \/ (d <> [] /\ exists p q M, a_omega a = OMat p q M /\ (p <> List.length d \/ q <> List.length d))) ->
  black_litterman ls a = Err ValueError \/ black_litterman ls a = Err LinAlgError.
Proof.
  intros Hd H. destruct (black_litterman ls a) as [r|e] eqn:E; [|destruct (bl_errors ls a e E); subst; auto]. exfalso.
  apply bl_ok in E. cbn zeta in E. destruct E as (N1 & N2 & N3 & pi & after & d' & vs & cf & om & B1 & B2 & B3 & B4 & B5 & B6 & _).
  rewrite Hd in B2. injection B2 as <-. pose proof (mapM_length _ _ _ B3) as L.
  assert (BV : forall x, In x d -> exists y, build_view (bl_assets (a_cov a)) x = Ok y).
  { apply ProjProofs3.mapM_ok_iff. eauto. }
  destruct H as [H|[H|[H|[H|[H|[H|[H|[H|[H|[H|[H|H]]]]]]]]]]]; try congruence; try lra.
  - destruct H as (H1 & H2 & H3). unfold bl_prior in B1. rewrite H1, H2, H3 in B1. discriminate.
  - destruct H as (H1 & w & H2 & H3). unfold bl_prior in B1. rewrite H1, H2 in B1. apply guard_ok in B1 as [G _]. apply Nat.eqb_eq in G. congruence.
  - destruct H as (k & l & HI & Hl). destruct (BV _ HI) as [y Hy]. unfold build_view in Hy. destruct l as [|x [|? ?]]; simpl in *; try discriminate. congruence.
  - destruct H as (l & v & HI & Hl). destruct (BV _ HI) as [y Hy]. unfold build_view in Hy. apply bind_ok in Hy as (t & _ & Hy). apply bind_ok in Hy as (i & Hi & _). apply (Hl i Hi).
  - destruct H as (l & v & HI & Hl). destruct (BV _ HI) as [y Hy]. unfold build_view in Hy. apply bind_ok in Hy as (t & _ & Hy). destruct l as [|p [|q [|? ?]]]; simpl in *; try discriminate. congruence.
  - destruct H as (l & Hc & Hl). rewrite Hc in B4. simpl in B4. apply guard_ok in B4 as [G _]. apply Nat.eqb_eq in G. rewrite map_length in G. congruence.
  - destruct H as (Hn & HO & Hc). rewrite Hc in B4. simpl in B4. injection B4 as <-. rewrite HO in B5. unfold build_omega in B5. rewrite map_length, L in B5. destruct (Nat.eqb_spec (List.length d) 0); [destruct d; [congruence|discriminate]|discriminate].
  - destruct H as (Hn & l & HO & Hl). rewrite HO in B5. unfold build_omega in B5. rewrite map_length, L in B5. destruct (Nat.eqb_spec (List.length d) 0); [destruct d; [congruence|discriminate]|].
    apply guard_ok in B5 as [G _]. apply Nat.eqb_eq in G. congruence.
  - destruct H as (Hn & p & q & M & HO & Hl). rewrite HO in B5. unfold build_omega in B5. rewrite map_length, L in B5. destruct (Nat.eqb_spec (List.length d) 0); [destruct d; [congruence|discriminate]|].
    apply guard_ok in B5 as [G _]. apply andb_prop in G as [G1 G2]. apply Nat.eqb_eq in G1, G2. destruct Hl; congruence.
Qed.

(** ** Labels *)
Theorem bl_labels ls a r : black_litterman ls a = Ok r ->
  match m_lab (a_cov a) with Some (ix, _) => b_lab r = Some (map LStr ix) /\ b_len r = m_rows (a_cov a) | None => b_lab r = None end.
Proof.
  intros H. apply bl_ok in H. cbn zeta in H. destruct H as (_ & _ & _ & pi & after & d & vs & cf & om & _ & _ & _ & _ & _ & _ & _ & _ & _ & _ & HL & HN).
  unfold bl_assets in HL. destruct (m_lab (a_cov a)) as [[ix cx]|]; auto. split; auto. apply HN. discriminate.
Qed.

(** A label present among the assets names its first position; positions 0..n-1 name themselves in an unlabelled covariance,
    and so do their decimal spellings. *)
Lemma index_of_first l assets i : index_of l assets = Some i <-> (nth_error assets i = Some l /\ forall j, (j < i)%nat -> nth_error assets j <> Some l).
Proof.
  revert i. induction assets as [|x t IH]; intros i; simpl.
  - split; [discriminate|]. intros [H _]. destruct i; discriminate.
  - unfold label_eqb. destruct (label_dec l x) as [->|N].
    + split.
      * intros E. injection E as <-. split; [reflexivity|]. intros; lia.
      * intros [H1 H2]. destruct i; [reflexivity|]. exfalso. apply (H2 0%nat); [lia|reflexivity].
    + destruct (index_of l t) as [j|] eqn:E; simpl.
      * split.
        { intros F. injection F as <-. destruct (proj1 (IH j) eq_refl) as [H1 H2]. split; [exact H1|]. intros [|q] Hq; simpl; [congruence|]. apply H2. lia. }
        { intros [H1 H2]. destruct i as [|i]; [simpl in H1; congruence|]. simpl in H1.
          assert (HI : Some j = Some i). { apply IH. split; [exact H1|]. intros q Hq. apply (H2 (S q)). lia. } congruence. }
      * split; [discriminate|]. intros [H1 H2]. destruct i as [|i]; [simpl in H1; congruence|]. simpl in H1.
        assert (HI : None = Some i). { apply IH. split; [exact H1|]. intros q Hq. apply (H2 (S q)). lia. } discriminate.
Qed.

Theorem bl_label_resolution assets l i : In l assets -> (bl_index assets l = Ok i <-> nth_error assets i = Some l /\ forall j, (j < i)%nat -> nth_error assets j <> Some l).
Proof.
  intros HI. rewrite <- index_of_first. unfold bl_index. destruct (index_of l assets) as [j|] eqn:E; [split; intros H; injection H as ->; reflexivity|].
  exfalso. apply In_nth_error in HI as [q Hq]. clear i.
  assert (G : exists i, nth_error assets i = Some l /\ forall j, (j < i)%nat -> nth_error assets j <> Some l).
  { revert q Hq. induction q as [q IH] using (well_founded_induction lt_wf). intros Hq. destruct (Classical_Prop.classic (exists j, (j < q)%nat /\ nth_error assets j = Some l)) as [(j & Hj & Ej)|N]; [apply (IH j Hj Ej)|].
    exists q. split; auto. intros j Hj Ej. apply N. eauto. }
  destruct G as (i & G). apply index_of_first in G. congruence.
Qed.

Theorem bl_unlabelled_positions n i : (i < n)%nat -> bl_index (bl_assets (MIn None 2 n n (fun _ _ => 0))) (LInt (Z.of_nat i)) = Ok i.
Proof.
  intros Hi. apply bl_label_resolution; simpl; unfold bl_assets; simpl.
  - apply in_map_iff. exists i. split; auto. apply in_seq. lia.
  - split; [rewrite nth_error_map, (nth_error_nth' _ 0%nat) by (rewrite seq_length; auto); simpl; rewrite seq_nth by auto; reflexivity|].
    intros j Hj. rewrite nth_error_map, (nth_error_nth' _ 0%nat) by (rewrite seq_length; lia). simpl. rewrite seq_nth by lia. simpl. intros E. injection E as E. lia.
Qed.

(** A vector of views is one absolute view per asset, in order; with a repeated label the last value wins. *)
Theorem bl_vector_views assets l : NoDup assets -> List.length l = List.length assets ->
  vec_to_dict assets (MVec l) = Ok (map (fun p => (KOne (fst p), VNum (snd p))) (combine assets l)).
Proof.
  intros HN HL. unfold vec_to_dict. rewrite HL, Nat.eqb_refl. simpl. f_equal.
  assert (G : forall ps acc, NoDup (map fst ps) -> (forall p q v, In p ps -> In (q, v) acc -> q <> KOne (fst p)) ->
    fold_left (fun d p => dict_set d (KOne (fst p)) (VNum (snd p))) ps acc = acc ++ map (fun p : label * R => (KOne (fst p), VNum (snd p))) ps).
  { induction ps as [|[a x] ps IH]; intros acc H1 H2; simpl; [rewrite app_nil_r; reflexivity|].
    inversion H1 as [|? ? Ha Hps]; subst.
    assert (E : forall acc, (forall q v, In (q, v) acc -> q <> KOne a) -> dict_set acc (KOne a) (VNum x) = acc ++ [(KOne a, VNum x)]).
    { clear. induction acc as [|[q v] acc IH]; intros H; [reflexivity|]. cbn [dict_set app]. destruct (vkey_dec (KOne a) q) as [<-|]; [exfalso; apply (H (KOne a) v); [left|]; auto|].
      rewrite IH; [reflexivity|]. intros q' v' HI. apply (H q' v'). right; auto. }
    rewrite E by (intros q v HI; apply (H2 (a, x) q v); [left; reflexivity|auto]).
    rewrite IH; auto.
    - rewrite <- app_assoc. reflexivity.
    - intros p q v Hp Hq. apply in_app_iff in Hq as [Hq|[Hq|[]]]; [apply (H2 p q v); [right|]; auto|]. injection Hq as <- <-. intros F. injection F as F. subst a. apply Ha. apply in_map. exact Hp. }
  apply G; [|intros p q v _ []].
  clear - HN HL. revert l HL. induction assets as [|a t IH]; intros [|x l] HL; simpl in *; try discriminate; [constructor|]. inversion HN; subst. constructor; auto.
  intros HI. apply H1. apply in_map_iff in HI as ([b y] & E & HI). simpl in E. subst b. apply in_combine_l in HI. exact HI.
Qed.

(** ** Reverse optimisation: the equilibrium prior makes the market portfolio optimal. *)
Theorem bl_equilibrium a w n sigma : m_rows (a_cov a) = n -> m_at (a_cov a) = sigma -> symmetric n sigma -> psd n sigma -> 0 < a_delta a ->
  a_pi a = None -> a_weights a = Some w -> rsum (w_vals w) <> 0 ->
  let market := fun i => of_list (w_vals w) i / rsum (w_vals w) in
  (forall y, mv_utility n (prior_mean_of a) sigma (a_delta a) y <= mv_utility n (prior_mean_of a) sigma (a_delta a) market) /\
  (positive_definite n sigma -> forall y, mv_utility n (prior_mean_of a) sigma (a_delta a) market <= mv_utility n (prior_mean_of a) sigma (a_delta a) y -> forall i, (i < n)%nat -> y i = market i).
Proof.
  intros Hn Hs Hsym Hp Hd H1 H2 Hw market.
  assert (E : forall y, mv_utility n (prior_mean_of a) sigma (a_delta a) market = mv_utility n (prior_mean_of a) sigma (a_delta a) y + a_delta a / 2 * quad n sigma (fun i => y i - market i)).
  { intros y. unfold mv_utility. rewrite MomProofs3.quad_minus by auto.
    assert (EP : forall u, dot n u (prior_mean_of a) = a_delta a * dot n u (mv n sigma market)).
    { intros u. rewrite <- dot_scale_r. apply dot_ext; auto. intros i Hi. unfold prior_mean_of. rewrite H1, H2, Hn, Hs. reflexivity. }
    rewrite !EP. rewrite (quad_mv n sigma market). field. }
  split.
  - intros y. rewrite (E y). pose proof (Hp (fun i => y i - market i)). assert (0 <= a_delta a / 2 * quad n sigma (fun i => y i - market i)) by (apply Rmult_le_pos; lra). lra.
  - intros Hpd y H i Hi. rewrite (E y) in H. pose proof (Hp (fun i => y i - market i)) as HQ.
    assert (Z : quad n sigma (fun i => y i - market i) = 0).
    { assert (0 <= a_delta a / 2 * quad n sigma (fun i => y i - market i)) by (apply Rmult_le_pos; lra). assert (a_delta a / 2 * quad n sigma (fun i => y i - market i) = 0) by lra. apply Rmult_integral in H3 as [|]; lra. }
    pose proof (pd_zero n sigma _ Hpd Z i Hi). cbv beta in *. lra.
Qed.

(** Only the proportions of the market weights matter. *)
Theorem bl_weights_scale a c w : c <> 0 -> rsum (w_vals w) <> 0 -> a_pi a = None -> a_weights a = Some w ->
  let a' := BlArgs (a_cov a) (a_mean a) (Some (Weights (map (fun x => c * x) (w_vals w)) (w_shared w))) (a_delta a) (a_tau a) (a_use_tau a) (a_pi a) (a_views a) (a_conf a) (a_omega a) in
  forall i, prior_mean_of a' i = prior_mean_of a i.
Proof.
  intros Hc Hw H1 H2 a' i. unfold prior_mean_of, a'. simpl. rewrite H1, H2. f_equal. apply dot_ext; auto. intros j Hj.
  assert (ES : rsum (map (fun x => c * x) (w_vals w)) = c * rsum (w_vals w)). { clear. induction (w_vals w) as [|x l IH]; simpl; [ring|]. rewrite IH. ring. }
  rewrite ES. unfold of_list. assert (EN : nth j (map (fun x => c * x) (w_vals w)) 0 = c * nth j (w_vals w) 0) by (rewrite <- (map_nth (fun x => c * x)); f_equal; ring).
  rewrite EN. field. auto.
Qed.

(** ** A concrete request *)
Definition bl_eye : matin := MIn (Some (["A"; "B"], ["A"; "B"])%string) 2 2 2 delta.
Definition ex_idx (l : label) : nat := if label_eqb l (LStr "B") then 1 else 0.
Definition ex_args tau views cf om : bl_args := BlArgs bl_eye None (Some (Weights [1; 3] true)) 2 tau true None views cf om.
Definition ex_views : list (vkey * vval) := [(KOne (LStr "A"), VNum 1)].
Definition ex_views2 : list (vkey * vval) := [(KTup [LStr "A"; LStr "B"], VNum 3); (KOne (LStr "B"), VSeq [2])].

Lemma eye_psd : psd 2 delta.
Proof. intros x. unfold quad; simpl. unfold delta; simpl. pose proof (Rle_0_sqr (x 0%nat)). pose proof (Rle_0_sqr (x 1%nat)). unfold Rsqr in *. lra. Qed.
Lemma eye_sym : symmetric 2 delta.
Proof. intros i j _ _. unfold delta. rewrite Nat.eqb_sym. reflexivity. Qed.

Example bl_setting_example cf om : bl_setting (ex_args 1 (MDict ex_views) cf om) 2 delta ex_views ex_idx /\ bl_setting (ex_args 1 (MDict ex_views2) cf om) 2 delta ex_views2 ex_idx.
Proof.
  split; constructor; simpl; auto; try (intros ix cx E; injection E as <- <-; reflexivity); try exact eye_sym; try discriminate.
  - intros k v [E|[]]. injection E as <- <-. reflexivity.
  - intros k v [E|[E|[]]]; injection E as <- <-; simpl; [|reflexivity]. unfold ex_idx, label_eqb. simpl. auto.
Qed.

Example bl_answer_example : exists r, black_litterman best_solve (ex_args 1 (MDict ex_views) CNone ONone) = Ok r /\ b_mean r 0%nat = 3 / 4.
Proof.
  destruct (bl_accepts best_solve (ex_args 1 (MDict ex_views) CNone ONone) 2 delta ex_views ex_idx) as [r Hr]; simpl; auto; try lra.
  - intros k A m B H. apply best_solve_complete'. exact H.
  - apply bl_setting_example.
  - exact eye_psd.
  - reflexivity.
  - intros k v [E|[]]; injection E as <- <-; exact I.
  - unfold omega_usable. simpl. intros v Hv. assert (v = 0%nat) by lia. subst v. simpl. unfold delta; simpl. lra.
  - exists r. split; auto. pose proof (bl_single_view_default best_solve (ex_args 1 (MDict ex_views) CNone ONone) r 2 delta (KOne (LStr "A")) (VNum 1) ex_idx) as H. simpl in H.
    change (b_mean r 0%nat) with (b_mean r (ex_idx (LStr "A"))). rewrite H; auto.
    + unfold ex_idx, label_eqb. simpl. unfold prior_mean_of. simpl. unfold dot. simpl. unfold delta, of_list. simpl. field.
    + intros k A m B X HX. apply best_solve_exact' with (1 := HX).
    + apply bl_setting_example.
    + lra.
    + unfold delta; simpl. lra.
Qed.

(** ** What the documentation says and the code does not do *)

(** A solver for one view, in closed form. *)
Definition solve_one (k : nat) (A : mat) (m : nat) (B : mat) : option mat :=
  if (k =? 1)%nat then if Req_EM_T (A 0%nat 0%nat) 0 then None else Some (fun _ j => B 0%nat j / A 0%nat 0%nat) else best_solve k A m B.
Lemma solve_one_exact : exact_solve solve_one.
Proof.
  intros k A m B X H a j Ha Hj. unfold solve_one in H. destruct (Nat.eqb_spec k 1) as [->|].
  - destruct (Req_EM_T (A 0%nat 0%nat) 0); [discriminate|]. injection H as <-. assert (a = 0%nat) by lia. subst a. unfold mv, dot; simpl. field. auto.
  - apply best_solve_exact' with (1 := H); auto.
Qed.

(** "Provide exactly one of pi, market_weights or prior_mean" is not enforced: all three are accepted and [pi] wins. *)
Theorem bl_exactly_one_prior_refuted : exists a r, a_pi a = Some [7] /\ a_weights a <> None /\ a_mean a <> None /\
  black_litterman solve_one a = Ok r /\ b_mean r 0%nat = 7.
Proof.
  exists (BlArgs (MIn None 2 1 1 (fun _ _ => 1)) (Some [5]) (Some (Weights [1] false)) 1 1 true (Some [7]) MNone CNone ONone).
  eexists. split; [reflexivity|]. split; [discriminate|]. split; [discriminate|]. unfold black_litterman. simpl. rewrite (proj2 (Rleb_false 1 0)) by lra. simpl. split; [reflexivity|reflexivity].
Qed.

(** The caller's array of market weights is normalised in place. *)
Theorem bl_weights_untouched_refuted : exists a r, option_map w_vals (a_weights a) = Some [1; 3] /\ black_litterman solve_one a = Ok r /\
  b_weights_after r = Some [1 / 4; 3 / 4].
Proof.
  exists (ex_args 1 MNone CNone ONone). eexists. split; [reflexivity|]. unfold black_litterman. simpl. rewrite (proj2 (Rleb_false 2 0)) by lra. simpl. split; [reflexivity|]. simpl.
  f_equal. f_equal; [|f_equal]; field.
Qed.

(** A view on an asset relative to itself is accepted and becomes the view that minus its mean is the target. *)
Theorem bl_self_view_refuted : exists assets v, build_view assets (KTup [LStr "A"; LStr "A"], VNum 3) = Ok v /\
  forall mu, dot (List.length assets) (vw_row v) mu = - mu 0%nat.
Proof. exists [LStr "A"; LStr "B"]. eexists. split; [reflexivity|]. intros mu. unfold dot, rel_row. simpl. ring. Qed.

(** [tau] is not validated: a negative one is accepted and the posterior "covariance" has a negative variance. *)
Theorem bl_negative_tau_refuted : exists a r, a_tau a < 0 /\ black_litterman solve_one a = Ok r /\ b_cov r 0%nat 0%nat < 0.
Proof.
  exists (BlArgs (MIn None 2 1 1 (fun _ _ => 1)) (Some [0]) None 1 (-2) true None (MDict [(KOne (LInt 0), VNum 1)]) CNone (OVec [3])).
  eexists. split; [simpl; lra|]. unfold black_litterman. simpl. rewrite (proj2 (Rleb_false 1 0)) by lra. cbn - [compute_posterior].
  rewrite bl_sigma_sym by (intros i j _ _; reflexivity). unfold compute_posterior. cbn - [Rdiv solve_one]. unfold solve_one. cbn - [Rdiv].
  destruct (Req_EM_T _ 0) as [E|N]; [exfalso; unfold rows_mat, diag_of in E; simpl in E; lra|]. cbn - [Rdiv]. split; [reflexivity|].
  cbn - [Rdiv]. unfold rows_mat, diag_of. cbn - [Rdiv]. match goal with |- ?x < 0 => replace x with (-5) by field end. lra.
Qed.

(** Without views and labels, a prior mean of any length is returned. *)
Theorem bl_length_checked_refuted : exists a r, m_rows (a_cov a) = 1%nat /\ black_litterman solve_one a = Ok r /\ b_len r = 3%nat.
Proof.
  exists (BlArgs (MIn None 2 1 1 (fun _ _ => 1)) None None 1 1 true (Some [1; 2; 3]) MNone CNone ONone). eexists. split; [reflexivity|].
  unfold black_litterman. simpl. rewrite (proj2 (Rleb_false 1 0)) by lra. simpl. split; reflexivity.
Qed.

(** The documented covariance [Sigma + tau Sigma - ...] does not hold without views. *)
Theorem bl_no_views_formula_refuted : exists a r, black_litterman solve_one a = Ok r /\ a_tau a = 1 /\ m_at (a_cov a) 0%nat 0%nat = 1 /\ b_cov r 0%nat 0%nat = 1.
Proof.
  exists (ex_args 1 MNone CNone ONone). eexists. unfold black_litterman. cbn - [bl_sigma]. rewrite (proj2 (Rleb_false 2 0)) by lra. cbn - [bl_sigma]. split; [reflexivity|].
  rewrite bl_sigma_sym by exact eye_sym. repeat split.
Qed.

(** The docstring's own example gives the confidence of the view on ("EM", "DM") under the key "EM,DM": it is ignored and the
    view is taken as certain. *)
Theorem bl_docstring_confidence_refuted :
  confidence_of (CDict [(KOne (LStr "EM,DM"), 6 / 10)]) (KTup [LStr "EM"; LStr "DM"]) 0 = 1 /\ confidence_used 1 = 1 - 1 / 1000000.
Proof. split; [reflexivity|]. unfold confidence_used. rewrite Rmax_right by lra. apply Rmin_left. lra. Qed.

(** A confidence of zero does not leave the prior alone, and one of one does not reach the target. *)
Theorem bl_extreme_confidence : confidence_used 0 = 1 / 1000000 /\ confidence_used 1 = 1 - 1 / 1000000 /\
  forall x, 1 / 1000000 <= x <= 1 - 1 / 1000000 -> confidence_used x = x.
Proof.
  split; [unfold confidence_used; rewrite Rmax_left by lra; apply Rmin_right; lra|]. split; [unfold confidence_used; rewrite Rmax_right by lra; apply Rmin_left; lra|].
  exact confidence_used_id.
Qed.

Print Assumptions bl_solver_exists.
Print Assumptions bl_no_views.
Print Assumptions bl_mean_optimal.
Print Assumptions bl_misfit_decreases.
Print Assumptions bl_certain_views.
Print Assumptions bl_omega.
Print Assumptions bl_single_view_confidence.
Print Assumptions bl_single_view_confidence_no_tau.
Print Assumptions bl_single_view_default.
Print Assumptions bl_cov_symmetric.
Print Assumptions bl_cov_between.
Print Assumptions bl_cov_information.
Print Assumptions bl_accepts.
Print Assumptions bl_errors.
Print Assumptions bl_rejects.
Print Assumptions bl_labels.
Print Assumptions bl_label_resolution.
Print Assumptions bl_unlabelled_positions.
Print Assumptions bl_vector_views.
Print Assumptions bl_equilibrium.
Print Assumptions bl_weights_scale.
Print Assumptions bl_exactly_one_prior_refuted.
Print Assumptions bl_weights_untouched_refuted.
Print Assumptions bl_self_view_refuted.
Print Assumptions bl_negative_tau_refuted.
Print Assumptions bl_length_checked_refuted.
Print Assumptions bl_no_views_formula_refuted.
Print Assumptions bl_docstring_confidence_refuted.
Print Assumptions bl_extreme_confidence.
