(** Black-Litterman: Omega, acceptance, single views, reverse optimisation. *)
From Coq Require Import Psatz ZArith.
From Verif Require Import RBase QpBase OptModel OptSpec ExistSpec OptProofs OptProofs7 OptProofs8 NiwModel BlModel BlSpec BlProofs BlProofs2 BlProofs3.
From Verif Require MomModel MomSpec MomProofs MomProofs3 ProjProofs3.
Open Scope R_scope.
Open Scope list_scope.

Lemma parse_conf_ok c keys cf : parse_conf c keys = Ok cf ->
  match cf with
  | None => c = CNone
  | Some l => c <> CNone /\ List.length l = List.length keys /\ forall v, (v < List.length keys)%nat -> nth v l 0 = confidence_of c (nth v keys (KTup [])) v
  end.
Proof.
  destruct c as [|x|dd|l]; simpl.
  - intros E. injection E as <-. reflexivity.
  - intros E. injection E as <-. split; [discriminate|]. split; [apply map_length|]. intros v Hv. rewrite (nth_map_lt _ _ _ (KTup [])) by auto. reflexivity.
  - intros E. injection E as <-. split; [discriminate|]. split; [apply map_length|]. intros v Hv. rewrite (nth_map_lt _ _ _ (KTup [])) by auto. reflexivity.
  - intros E. apply guard_ok in E as [G E]. apply Nat.eqb_eq in G. injection E as <-. split; [discriminate|]. auto.
Qed.

Lemma nth_map2 {A B} (f : A -> B -> R) l m v da db dc : (v < List.length l)%nat -> (v < List.length m)%nat -> nth v (map2 f l m) dc = f (nth v l da) (nth v m db).
Proof.
  revert m v. induction l as [|x l IH]; simpl; intros m v H1 H2; [lia|]. destruct m as [|y m]; simpl in *; [lia|]. destruct v; [reflexivity|]. apply IH; lia.
Qed.

Definition omega_entry (a : bl_args) (idx : label -> nat) (sigma : mat) (d : list (vkey * vval)) (v w : nat) : R :=
  match a_omega a with
  | ONone => if (v =? w)%nat then a_tau a * view_variance idx (nth_key d v) sigma else 0
  | OIdzorek => if (v =? w)%nat then
        let c := confidence_used (confidence_of (a_conf a) (nth_key d v) v) in
        (1 - c) / c * ((if a_use_tau a then a_tau a else 1) * view_variance idx (nth_key d v) sigma) else 0
  | OStr => 0
  | OVec l => if (v =? w)%nat then nth v l 0 else 0
  | OMat _ _ M => M v w
  end.

Lemma build_omega_entry assets (a : bl_args) idx sigma d vs cf om :
  symmetric (List.length assets) sigma -> proper_views assets idx d -> d <> [] -> mapM (build_view assets) d = Ok vs -> parse_conf (a_conf a) (map vw_key vs) = Ok cf ->
  build_omega (List.length assets) sigma (a_tau a) (a_use_tau a) (map vw_row vs) cf (a_omega a) = Ok om ->
  forall v w, (v < List.length d)%nat -> (w < List.length d)%nat -> om v w = omega_entry a idx sigma d v w.
Proof.
  intros HS Hp Hd HM HC H v w Hv Hw. destruct (build_views_proper _ idx d vs Hp HM) as [L V]. apply parse_conf_ok in HC.
  unfold build_omega in H. rewrite map_length, L in H. destruct (Nat.eqb_spec (List.length d) 0) as [E|_]; [destruct d; [congruence|discriminate]|].
  assert (Hq : forall t, quad (List.length assets) (fun i j => t * sigma i j) (nth v (map vw_row vs) (fun _ => 0)) = t * view_variance idx (nth_key d v) sigma).
  { intros t. destruct (V v Hv) as (V1 & _ & _ & V4). unfold rows_mat in V1. rewrite (quad_scale _ t sigma). f_equal. rewrite <- (key_row_variance assets idx _ sigma HS V4).
    apply quad_ext; auto. intros i Hi. rewrite <- V1. reflexivity. }
  unfold omega_entry. destruct (a_omega a) as [| | |l|r c M].
  - injection H as <-. unfold diag_of. destruct (v =? w)%nat; auto. rewrite (nth_map_lt (A := vec) _ _ _ (fun _ => 0)) by (rewrite map_length; lia). apply Hq.
  - destruct cf as [cs|]; [|discriminate]. destruct HC as (_ & Lc & Vc). rewrite map_length, L in Lc, Vc. injection H as <-. unfold diag_of. destruct (v =? w)%nat; auto.
    rewrite (nth_map2 (A := vec) _ _ _ _ (fun _ => 0) 0) by (rewrite ?map_length; lia). rewrite Vc by auto. destruct (V v Hv) as (_ & _ & -> & _). unfold confidence_used, clip, conf_eps. f_equal.
    destruct (a_use_tau a); [apply Hq|]. rewrite <- (Hq 1). apply quad_ext; auto. intros; ring.
  - discriminate.
  - apply guard_ok in H as [_ H]. injection H as <-. reflexivity.
  - apply guard_ok in H as [_ H]. injection H as <-. reflexivity.
Qed.

Lemma confidence_used_range x : 0 < confidence_used x < 1.
Proof. unfold confidence_used. split; [apply Rmin_glb_lt; [lra|apply Rlt_le_trans with (1 / 1000000); [lra|apply Rmax_l]]|apply Rle_lt_trans with (1 - 1 / 1000000); [apply Rmin_l|lra]]. Qed.

Lemma confidence_used_id x : 1 / 1000000 <= x <= 1 - 1 / 1000000 -> confidence_used x = x.
Proof. intros H. unfold confidence_used. rewrite Rmax_right by lra. apply Rmin_right. lra. Qed.

Lemma diag_quad k (D : mat) x : (forall v w, (v < k)%nat -> (w < k)%nat -> v <> w -> D v w = 0) -> quad k D x = sumn k (fun v => D v v * x v ^ 2).
Proof.
  intros H. unfold quad. apply sumn_ext. intros v Hv. rewrite (sumn_ext k _ (fun w => delta v w * (D v w * x v * x w))).
  - rewrite sumn_delta_r by auto. ring.
  - intros w Hw. unfold delta. destruct (Nat.eqb_spec v w) as [->|Hvw]; [ring|]. rewrite H by auto. ring.
Qed.

Lemma diag_pd k (D : mat) : (forall v w, (v < k)%nat -> (w < k)%nat -> v <> w -> D v w = 0) -> (forall v, (v < k)%nat -> 0 < D v v) -> positive_definite k D.
Proof.
  intros H Hd x (i & Hi & Hx). rewrite diag_quad by auto. apply Rlt_le_trans with (D i i * x i ^ 2).
  - apply Rmult_lt_0_compat; auto. simpl. rewrite Rmult_1_r. apply Rsqr_pos_lt. auto.
  - apply (sumn_term_le k i (fun v => D v v * x v ^ 2)); auto. intros v Hv. apply Rmult_le_pos; [apply Rlt_le; auto|apply pow2_ge_0].
Qed.

Lemma factor_pos x : 0 < (1 - confidence_used x) / confidence_used x.
Proof. pose proof (confidence_used_range x). unfold Rdiv. apply Rmult_lt_0_compat; [lra|apply Rinv_0_lt_compat; lra]. Qed.

Lemma omega_entry_pd a idx sigma d : 0 < a_tau a -> omega_usable a idx sigma d -> positive_definite (List.length d) (omega_entry a idx sigma d).
Proof.
  intros Ht H. unfold omega_usable in H. cbn zeta in H. destruct (a_omega a) as [| | |l|r c M] eqn:EO.
  - apply diag_pd.
    + intros v w _ _ Hvw. unfold omega_entry. rewrite EO. destruct (Nat.eqb_spec v w); [lia|auto].
    + intros v Hv. unfold omega_entry. rewrite EO, Nat.eqb_refl. apply Rmult_lt_0_compat; auto.
  - apply diag_pd.
    + intros v w _ _ Hvw. unfold omega_entry. rewrite EO. destruct (Nat.eqb_spec v w); [lia|auto].
    + intros v Hv. unfold omega_entry. rewrite EO, Nat.eqb_refl. cbn zeta. apply Rmult_lt_0_compat; [apply factor_pos|]. destruct H as [H _]. apply Rmult_lt_0_compat; auto. destruct (a_use_tau a); lra.
  - tauto.
  - apply diag_pd.
    + intros v w _ _ Hvw. unfold omega_entry. rewrite EO. destruct (Nat.eqb_spec v w); [lia|auto].
    + intros v Hv. unfold omega_entry. rewrite EO, Nat.eqb_refl. apply H; auto.
  - destruct H as (_ & _ & H). intros x Hx. specialize (H x Hx). unfold omega_entry. rewrite EO. exact H.
Qed.

Lemma pd_nonsingular k A : positive_definite k A -> forall x, (forall v, (v < k)%nat -> mv k A x v = 0) -> forall v, (v < k)%nat -> x v = 0.
Proof.
  intros H x E. apply pd_zero with A; auto. rewrite quad_mv. unfold dot. apply sumn_0. intros v Hv. rewrite E by auto. ring.
Qed.

Lemma pd_ext k A B : (forall i j, (i < k)%nat -> (j < k)%nat -> A i j = B i j) -> positive_definite k A -> positive_definite k B.
Proof. intros E H x Hx. specialize (H x Hx). rewrite (quad_ext k B A x x); auto. intros; symmetry; auto. Qed.

Lemma bl_accepts_l ls a n sigma d idx : complete_solve ls -> bl_setting a n sigma d idx -> psd n sigma -> 0 < a_tau a -> 0 < a_delta a ->
  m_nd (a_cov a) = 2%nat -> m_cols (a_cov a) = n -> prior_given a n -> conf_shaped (a_conf a) (List.length d) -> single_targets d ->
  omega_usable a idx sigma d -> exists r, black_litterman ls a = Ok r.
Proof.
  intros Hls HS Hpsd Ht Hdl Hnd Hc Hpr Hcf Hst Hom. pose proof HS as [E1 E2 E3 E4 E5 E6 E7]. pose proof (st_n a n sigma d idx HS) as En.
  unfold black_litterman. rewrite E1, E3, Hnd, Hc, Nat.eqb_refl. simpl guard. rewrite (proj2 (Rleb_false (a_delta a) 0)) by lra. simpl guard. rewrite (bl_sigma_sym n sigma E4).
  assert (B1 : exists pi after, bl_prior n sigma a = Ok (pi, after) /\ List.length pi = n).
  { unfold bl_prior. unfold prior_given in Hpr. destruct (a_pi a) as [l|]; [eauto|]. destruct (a_weights a) as [w|].
    - rewrite Hpr, Nat.eqb_refl. simpl. eexists _, _. split; [reflexivity|]. rewrite map_length, seq_length. reflexivity.
    - destruct (a_mean a); [eauto|tauto]. }
  destruct B1 as (pi & after & -> & Lpi). cbn [bind]. rewrite E5. cbn [bind].
  destruct (mapM_total (build_view (bl_assets (a_cov a))) d) as [vs HM].
  { intros [k v] HI. specialize (E7 k v HI). specialize (Hst k v HI). unfold build_view. destruct v as [x|[|x [|y t]]]; simpl in *; try discriminate.
    - destruct k as [l|[|p [|q [|? ?]]]]; try tauto; [rewrite E7; simpl; eauto|destruct E7 as (-> & -> & _); simpl; eauto].
    - destruct k as [l|[|p [|q [|? ?]]]]; try tauto; [rewrite E7; simpl; eauto|destruct E7 as (-> & -> & _); simpl; eauto]. }
  rewrite HM. cbn [bind]. destruct (build_views_proper _ idx d vs E7 HM) as [L V].
  assert (B2 : exists cf, parse_conf (a_conf a) (map vw_key vs) = Ok cf).
  { unfold parse_conf. unfold conf_shaped in Hcf. destruct (a_conf a); try (eexists; reflexivity). rewrite map_length, L, Hcf, Nat.eqb_refl. simpl. eauto. }
  destruct B2 as [cf EC]. rewrite EC. cbn [bind].
  assert (B3 : exists om, build_omega n sigma (a_tau a) (a_use_tau a) (map vw_row vs) cf (a_omega a) = Ok om).
  { unfold build_omega. rewrite map_length, L. destruct (List.length d =? 0)%nat; [eauto|]. unfold omega_usable in Hom. cbn zeta in Hom. pose proof (parse_conf_ok _ _ _ EC) as PC.
    destruct (a_omega a) as [| | |l|r c M]; [eauto| |tauto| |].
    - destruct cf; [eauto|]. destruct Hom as [_ Hom]. congruence.
    - destruct Hom as [-> _]. rewrite Nat.eqb_refl. simpl. eauto.
    - destruct Hom as (-> & -> & _). rewrite Nat.eqb_refl. simpl. eauto. }
  destruct B3 as [om EO]. rewrite EO. cbn [bind].
  assert (Hpd : positive_definite (List.length d) om).
  { apply pd_ext with (omega_entry a idx sigma d); [|apply omega_entry_pd; auto]. intros i j Hi Hj. symmetry. rewrite <- En in EO, E4. eapply (build_omega_entry _ a idx sigma d); eauto. }
  assert (Hts : psd n (fun i j => a_tau a * sigma i j)) by (intros x; rewrite quad_scale; apply Rmult_le_pos; [lra|apply Hpsd]).
  assert (B4 : exists lm C, compute_posterior ls n sigma (a_tau a) (List.length pi) (of_list pi) (map vw_row vs) (map vw_target vs) om = Ok (n, lm, C)).
  { unfold compute_posterior. rewrite map_length, L, Lpi, Nat.eqb_refl. destruct (Nat.eqb_spec (List.length d) 0) as [Z|_]; [destruct d; [congruence|discriminate]|]. simpl guard.
    pose proof (bl_A_pd n (List.length d) _ om (rows_mat (map vw_row vs)) Hts Hpd) as HA. pose proof (pd_nonsingular _ _ HA) as NS.
    match goal with |- context [ls ?k ?A 1%nat ?B] => pose proof (Hls k A 1%nat B NS); destruct (ls k A 1%nat B) as [X|]; [|congruence] end.
    match goal with |- context [ls ?k ?A n ?B] => pose proof (Hls k A n B NS); destruct (ls k A n B) as [Y|]; [|congruence] end. eexists _, _. reflexivity. }
  destruct B4 as (lm & C & ->). cbn [bind fst snd]. rewrite Nat.eqb_refl. simpl guard. destruct (m_lab (a_cov a)); eauto.
Qed.

Lemma bl_errors_l ls a e : black_litterman ls a = Err e -> e = ValueError \/ e = LinAlgError.
Proof.
  assert (HB : forall assets kv e, build_view assets kv = Err e -> e = ValueError).
  { intros assets [k v] e'. unfold build_view. assert (HI : forall l e, bl_index assets l = Err e -> e = ValueError).
    { intros l e2. unfold bl_index. destruct (index_of l assets); [discriminate|]. destruct l as [s|z].
      - destruct (digits s); [|congruence]. destruct (index_of _ assets); [discriminate|]. destruct (_ <? _)%nat; congruence.
      - destruct (_ && _); congruence. }
    assert (HT : forall t : R -> res view, bind (match v with VNum x => Ok x | VSeq [x] => Ok x | VSeq _ => Err ValueError end) t = Err e' -> (forall x, t x = Err e' -> e' = ValueError) -> e' = ValueError).
    { intros t H1 H2. destruct v as [x|[|x [|y tl]]]; simpl in H1; try congruence; eauto. }
    intros H. apply HT in H; auto. intros x. destruct k as [l|[|p [|q [|? ?]]]]; simpl; try congruence.
    - destruct (bl_index assets l) eqn:E; simpl; [discriminate|]. intros F. injection F as <-. eauto.
    - destruct (bl_index assets p) eqn:E; simpl; [|intros F; injection F as <-; eauto]. destruct (bl_index assets q) eqn:E'; simpl; [discriminate|]. intros F; injection F as <-; eauto. }
  unfold black_litterman. destruct (_ && _); simpl; [|intros H; injection H as <-; auto]. destruct (negb _); simpl; [|intros H; injection H as <-; auto].
  destruct (bl_prior _ _ a) as [[pi after]|e1] eqn:E1; simpl.
  2: { intros H. injection H as ->. left. unfold bl_prior in E1. destruct (a_pi a); [discriminate|]. destruct (a_weights a); [destruct (_ =? _)%nat; simpl in E1; congruence|]. destruct (a_mean a); congruence. }
  destruct (vec_to_dict _ _) as [d|e2] eqn:E2; simpl.
  2: { intros H. injection H as ->. left. unfold vec_to_dict in E2. destruct (a_views a); try discriminate. destruct (_ =? _)%nat; simpl in E2; congruence. }
  destruct (mapM _ d) as [vs|e3] eqn:E3; simpl.
  2: { intros H. injection H as ->. left. apply ProjProofs3.mapM_err in E3. destruct E3 as (x & _ & E3). eauto. }
  destruct (parse_conf _ _) as [cf|e4] eqn:E4; simpl.
  2: { intros H. injection H as ->. left. unfold parse_conf in E4. destruct (a_conf a); try discriminate. destruct (_ =? _)%nat; simpl in E4; congruence. }
  destruct (build_omega _ _ _ _ _ _ _) as [om|e5] eqn:E5; simpl.
  2: { intros H. injection H as ->. left. unfold build_omega in E5. destruct (_ =? _)%nat; [discriminate|]. destruct (a_omega a); try congruence.
       - destruct cf; congruence.
       - destruct (_ =? _)%nat; simpl in E5; congruence.
       - destruct (_ && _); simpl in E5; congruence. }
  destruct (compute_posterior _ _ _ _ _ _ _ _ _) as [[[l m] C]|e6] eqn:E6; simpl.
  2: { intros H. injection H as ->. unfold compute_posterior in E6. destruct (_ =? 0)%nat; [discriminate|]. destruct (_ =? _)%nat; simpl in E6; [|left; congruence].
       destruct (ls _ _ 1%nat _); [|right; congruence]. destruct (ls _ _ _ _); [discriminate|right; congruence]. }
  destruct (m_lab _); [destruct (_ =? _)%nat; simpl; [discriminate|intros H; injection H as <-; auto]|discriminate].
Qed.
