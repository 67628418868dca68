(** Choosing the graphical-lasso penalty by cross-validation; exact routines exist. *)
From Coq Require Import List Lia Lra ClassicalEpsilon FunctionalExtensionality.
Import ListNotations.
From Verif Require Import Err RBase QpBase MomModel MomSpec MomProofs GlModel GlSpec EigLib GlProofs GlProofs2.
From Verif Require ExistSpec BlProofs OptProofs3 LinLib.
Open Scope R_scope.
Open Scope list_scope.

(** * Folds *)
Lemma valid_nonempty T K f : (f < K)%nat -> (K <= T)%nat -> valid_rows T K f <> [].
Proof.
  intros Hf HK E. assert (H : In f (valid_rows T K f)).
  { apply filter_In. split; [apply in_seq; lia|]. rewrite Nat.mod_small by exact Hf. apply Nat.eqb_refl. }
  rewrite E in H. destruct H.
Qed.
Lemma train_nonempty T K f : (f < K)%nat -> (2 <= K)%nat -> (K <= T)%nat -> train_rows T K f <> [].
Proof.
  intros Hf H2 HK E. set (t := if Nat.eqb f 0 then 1%nat else 0%nat).
  assert (Ht : (t < K)%nat /\ t <> f) by (unfold t; destruct (Nat.eqb_spec f 0); lia).
  assert (H : In t (train_rows T K f)).
  { apply filter_In. split; [apply in_seq; lia|]. rewrite Nat.mod_small by lia. apply Bool.negb_true_iff, Nat.eqb_neq. apply Ht. }
  rewrite E in H. destruct H.
Qed.

Lemma gl_scores_spec env T N K X a folds : (2 <= K)%nat -> (K <= T)%nat -> (forall f, In f folds -> (f < K)%nat) ->
  forall ss, gl_scores env T N K X a folds = Ok ss -> Forall2 (cv_fold env T N K X a) folds ss.
Proof.
  intros H2 HK. induction folds as [|f rest IH]; intros Hf ss E; cbn [gl_scores] in E; [injection E as <-; constructor|].
  pose proof (train_nonempty T K f (Hf f (or_introl eq_refl)) H2 HK) as Nt.
  pose proof (valid_nonempty T K f (Hf f (or_introl eq_refl)) HK) as Nv.
  destruct (train_rows T K f) as [|t0 tr] eqn:Et; [congruence|]. destruct (valid_rows T K f) as [|v0 va] eqn:Ev; [congruence|].
  rewrite <- Et, <- Ev in E. apply bind_ok in E as ([[c P] it] & E1 & E). apply bind_ok in E as (rs & E2 & E). injection E as <-.
  constructor; [|apply IH; auto; intros; apply Hf; right; assumption].
  unfold cv_fold. change (filter (fun t => negb (in_fold K f t)) (seq 0 T)) with (train_rows T K f). change (filter (in_fold K f) (seq 0 T)) with (valid_rows T K f).
  split; [congruence|]. split; [congruence|]. exists c, P, it. split; [exact E1|]. reflexivity.
Qed.

Lemma gl_search_spec env T N X : (2 <= T)%nat -> forall cands a0 b a,
  gl_search env T N (gl_K T) X a0 (Some b) cands = Ok a ->
  exists m, b <= m /\ (forall c, In c cands -> exists mc, cv_mean env T N X c mc /\ mc <= m + 1 / 100000000) /\
    ((a = a0 /\ m = b) \/
     (b + 1 / 100000000 < m /\ exists pre post, cands = pre ++ a :: post /\ cv_mean env T N X a m /\
        forall c, In c pre -> exists mc, cv_mean env T N X c mc /\ mc < m)).
Proof.
  intros HT. induction cands as [|c rest IH]; intros a0 b a E; cbn [gl_search] in E.
  - injection E as <-. exists b. split; [lra|]. split; [intros c []|]. left. auto.
  - apply bind_ok in E as (ss & Es & E).
    assert (HK : (2 <= gl_K T)%nat /\ (gl_K T <= T)%nat) by (unfold gl_K; lia).
    pose proof (gl_scores_spec env T N (gl_K T) X c (seq 0 (gl_K T)) (proj1 HK) (proj2 HK) ltac:(intros f Hf; apply in_seq in Hf; lia) ss Es) as HF.
    destruct ss as [|s0 ss]. { inversion HF as [HF0|]. assert (List.length (seq 0 (gl_K T)) = 0%nat) by (rewrite <- HF0; reflexivity). rewrite seq_length in *. lia. }
    set (m := rsum (s0 :: ss) / INR (List.length (s0 :: ss))) in *.
    assert (HM : cv_mean env T N X c m) by (exists (s0 :: ss); split; [exact HF|reflexivity]).
    destruct (Rltb_spec (b + 1 / 100000000) m) as [L|L].
    + destruct (IH c m a E) as (m' & B1 & B2 & B3). exists m'. split; [lra|]. split.
      { intros x [<- | Hx]; [exists m; split; [exact HM|lra]|auto]. }
      right. destruct B3 as [[-> ->] | (B4 & pre & post & -> & B5 & B6)].
      * split; [lra|]. exists [], rest. split; [reflexivity|]. split; [exact HM|]. intros x [].
      * split; [lra|]. exists (c :: pre), post. split; [reflexivity|]. split; [exact B5|]. intros x [<- | Hx]; [exists m; split; [exact HM|lra]|auto].
    + destruct (IH a0 b a E) as (m' & B1 & B2 & B3). exists m'. split; [lra|]. split.
      { intros x [<- | Hx]; [exists m; split; [exact HM|lra]|auto]. }
      destruct B3 as [[-> ->] | (B4 & pre & post & -> & B5 & B6)]; [left; auto|]. right. split; [lra|].
      exists (c :: pre), post. split; [reflexivity|]. split; [exact B5|]. intros x [<- | Hx]; [|auto]. exists m. split; [exact HM|].
      lra.
Qed.

(** * The grid *)
Lemma sqrt10_pos : 1 < sqrt 10.
Proof. rewrite <- sqrt_1. apply sqrt_lt_1; lra. Qed.
Lemma sqrt10_4 : sqrt 10 ^ 4 = 100.
Proof. replace (sqrt 10 ^ 4) with ((sqrt 10 * sqrt 10) * (sqrt 10 * sqrt 10)) by ring. rewrite sqrt_sqrt by lra. ring. Qed.
Lemma grid_pow_bounds k : (k <= 4)%nat -> 1 <= sqrt 10 ^ k <= 100.
Proof.
  intros Hk. pose proof sqrt10_pos. split; [apply pow_R1_Rle; lra|]. rewrite <- sqrt10_4. apply Rle_pow; [lra|exact Hk].
Qed.

Lemma fold_max_ge l x : In x l -> x <= fold_right Rmax 0 l.
Proof. induction l as [|y l IH]; intros []; simpl; [subst; apply Rmax_l|eapply Rle_trans; [apply IH; assumption|apply Rmax_r]]. Qed.
Lemma fold_max_in l : fold_right Rmax 0 l = 0 \/ In (fold_right Rmax 0 l) l.
Proof.
  induction l as [|y l IH]; simpl; [auto|]. destruct (Rle_dec y (fold_right Rmax 0 l)) as [L|L].
  - rewrite (Rmax_right y) by exact L. destruct IH; auto.
  - rewrite (Rmax_left y) by lra. auto.
Qed.
Lemma max_offdiag_ge N S i j : (i < N)%nat -> (j < N)%nat -> i <> j -> Rabs (S i j) <= max_offdiag N S.
Proof.
  intros Hi Hj Hn. unfold max_offdiag.
  eapply Rle_trans; [|apply fold_max_ge; apply in_map_iff; exists i; split; [reflexivity|apply in_seq; lia]].
  apply fold_max_ge. apply in_map_iff. exists j. split; [|apply in_seq; lia]. apply Nat.eqb_neq in Hn. rewrite Hn. reflexivity.
Qed.
Lemma max_offdiag_in N S : max_offdiag N S = 0 \/ exists i j, (i < N)%nat /\ (j < N)%nat /\ i <> j /\ max_offdiag N S = Rabs (S i j).
Proof.
  unfold max_offdiag. destruct (fold_max_in (map (fun i => fold_right Rmax 0 (map (fun j => if Nat.eqb i j then 0 else Rabs (S i j)) (seq 0 N))) (seq 0 N))) as [E|I]; [auto|].
  apply in_map_iff in I as (i & Ei & Hi). apply in_seq in Hi. rewrite <- Ei.
  destruct (fold_max_in (map (fun j => if Nat.eqb i j then 0 else Rabs (S i j)) (seq 0 N))) as [E|I]; [auto|].
  apply in_map_iff in I as (j & Ej & Hj). apply in_seq in Hj. rewrite <- Ej. destruct (Nat.eqb_spec i j) as [|Nn]; [auto|]. right. exists i, j. repeat split; auto; lia.
Qed.

Lemma gl_choose_auto env T N X a : (2 <= T)%nat -> gl_choose env T N X GlAuto = Ok a ->
  let amax := gl_alpha_max N (emp_cov T X) in
  (exists k, (k <= 4)%nat /\ a = amax / sqrt 10 ^ k) /\
  exists m, cv_mean env T N X a m /\
    (forall k, (k <= 4)%nat -> exists mk, cv_mean env T N X (amax / sqrt 10 ^ k) mk /\ mk <= m + 1 / 100000000) /\
    (forall k, (k <= 4)%nat -> a < amax / sqrt 10 ^ k -> exists mk, cv_mean env T N X (amax / sqrt 10 ^ k) mk /\ mk < m).
Proof.
  intros HT E amax. unfold gl_choose in E. destruct (Nat.eqb N 0); [discriminate|]. fold amax in E.
  assert (HP : 0 < amax) by (unfold amax, gl_alpha_max; eapply Rlt_le_trans; [|apply Rmax_r]; lra).
  set (g := fun k => amax / sqrt 10 ^ k).
  assert (Hg : gl_alphas amax = map g (seq 0 5)) by reflexivity. rewrite Hg in E.
  assert (Hdec : forall k l, (k < l)%nat -> g l < g k).
  { intros k l Hkl. unfold g, Rdiv. apply Rmult_lt_compat_l; [exact HP|]. pose proof sqrt10_pos. apply Rinv_lt_contravar.
    - apply Rmult_lt_0_compat; apply pow_lt; lra.
    - apply Rlt_pow; [lra|exact Hkl]. }
  change (map g (seq 0 5)) with (g 0%nat :: map g (seq 1 4)) in E. cbn [gl_search] in E.
  apply bind_ok in E as (ss & Es & E).
  assert (HK : (2 <= gl_K T)%nat /\ (gl_K T <= T)%nat) by (unfold gl_K; lia).
  pose proof (gl_scores_spec env T N (gl_K T) X _ (seq 0 (gl_K T)) (proj1 HK) (proj2 HK) ltac:(intros f Hf; apply in_seq in Hf; lia) ss Es) as HF.
  destruct ss as [|s0 ss]. { inversion HF as [HF0|]. assert (List.length (seq 0 (gl_K T)) = 0%nat) by (rewrite <- HF0; reflexivity). rewrite seq_length in *. lia. }
  set (m0 := rsum (s0 :: ss) / INR (List.length (s0 :: ss))) in *.
  assert (HM : cv_mean env T N X (g 0%nat) m0) by (exists (s0 :: ss); split; [exact HF|reflexivity]).
  destruct (gl_search_spec env T N X HT _ _ _ _ E) as (m & B1 & B2 & B3).
  assert (Hall : forall k, (k <= 4)%nat -> exists mk, cv_mean env T N X (g k) mk /\ mk <= m + 1 / 100000000).
  { intros k Hk. destruct k as [|k]; [exists m0; split; [exact HM|lra]|]. apply B2. apply in_map. apply in_seq. lia. }
  destruct B3 as [[-> ->] | (B4 & pre & post & Ep & B5 & B6)].
  - split; [exists 0%nat; split; [lia|reflexivity]|]. exists m0. split; [exact HM|]. split; [exact Hall|]. intros k Hk L. exfalso.
    destruct k as [|k]; [unfold g in L; lra|]. pose proof (Hdec 0%nat (S k) ltac:(lia)). unfold g in *. lra.
  - assert (Ha : In a (map g (seq 1 4))) by (rewrite Ep; apply in_elt). apply in_map_iff in Ha as (ka & Ea & Hka). apply in_seq in Hka.
    split; [exists ka; split; [lia|symmetry; exact Ea]|]. exists m. split; [exact B5|]. split; [exact Hall|].
    intros k Hk L. change (amax / sqrt 10 ^ k) with (g k) in *. rewrite <- Ea in L.
    assert (Hkk : (k < ka)%nat). { destruct (lt_eq_lt_dec k ka) as [[?|E1]|G]; [assumption|rewrite E1 in L; lra|pose proof (Hdec _ _ G); lra]. }
    destruct k as [|k]; [exists m0; split; [exact HM|lra]|]. apply B6.
    (* the entries before [g ka] *)
    assert (Hl : List.length pre = (ka - 1)%nat).
    { assert (En : nth_error (map g (seq 1 4)) (List.length pre) = Some a) by (rewrite Ep, nth_error_app2, Nat.sub_diag by lia; reflexivity).
      assert (Hlen : (List.length pre < 4)%nat).
      { assert (List.length (map g (seq 1 4)) = List.length (pre ++ a :: post)) by (rewrite Ep; reflexivity). rewrite map_length, seq_length, app_length in H. simpl in H. lia. }
      rewrite (map_nth_error g (List.length pre) (seq 1 4) (d := S (List.length pre))) in En.
      2: { destruct (List.length pre) as [|[|[|[|q]]]]; try reflexivity. lia. }
      injection En as En. rewrite <- Ea in En. destruct (lt_eq_lt_dec (S (List.length pre)) ka) as [[G|G]|G]; [pose proof (Hdec _ _ G); lra|lia|pose proof (Hdec _ _ G); lra]. }
    assert (En : nth_error (pre ++ a :: post) k = Some (g (S k))).
    { rewrite <- Ep. rewrite (map_nth_error g k (seq 1 4) (d := S k)); [reflexivity|]. destruct k as [|[|[|[|q]]]]; try reflexivity. lia. }
    rewrite nth_error_app1 in En by lia. eapply nth_error_In. exact En.
Qed.

(** * Exact routines exist *)
Definition best_eigh : eigh_oracle := fun n K =>
  match excluded_middle_informative (exists r : vec * mat, eigen_decomposition n K (fst r) (snd r)) with
  | left H => Some (proj1_sig (constructive_indefinite_description _ H))
  | right _ => None
  end.
Definition best_inv : inv_oracle := fun n A =>
  match excluded_middle_informative (exists B, is_inverse n A B) with
  | left H => Some (proj1_sig (constructive_indefinite_description _ H))
  | right _ => None
  end.
Definition best_gl_env (logdet : nat -> mat -> R) : gl_env := mkGlEnv rayleigh best_eigh best_inv (fun _ A => A) logdet.
Lemma best_eigh_exact : exact_eigh best_eigh.
Proof.
  intros n K HK. unfold best_eigh. destruct (excluded_middle_informative _) as [H|H].
  - destruct (constructive_indefinite_description _ H) as [[d Q] Hr]. cbn [proj1_sig]. exists d, Q. split; [reflexivity|exact Hr].
  - exfalso. apply H. destruct (spectral n K HK) as (d & Q & H1 & H2). exists (d, Q). split; assumption.
Qed.
Lemma best_gl_env_exact ld : exact_gl_env (best_gl_env ld).
Proof.
  constructor; cbn [best_gl_env ge_eig ge_eigh ge_inv].
  - exact rayleigh_correct.
  - exact best_eigh_exact.
  - intros n A B. unfold best_inv. destruct (excluded_middle_informative _) as [H|H]; [|discriminate].
    intros E. injection E as <-. exact (proj2_sig (constructive_indefinite_description _ H)).
  - intros n A B HB. unfold best_inv. destruct (excluded_middle_informative _) as [H|H]; [discriminate|]. exfalso. eauto.
Qed.

(** * The sample second moment *)
Lemma emp_cov_sym T X i j : emp_cov T X i j = emp_cov T X j i.
Proof. unfold emp_cov. f_equal. apply sumn_ext. intros; ring. Qed.
Lemma emp_cov_psd T N X : psd N (emp_cov T X).
Proof.
  intros x. destruct T as [|T].
  - right. symmetry. rewrite quad_mv. unfold dot, mv, emp_cov. apply sumn_0. intros i _. unfold dot. rewrite sumn_0; [ring|]. intros j _. simpl. unfold Rdiv. ring.
  - rewrite (quad_ext N _ (fun i j => / INR (S T) * sumn (S T) (fun t => X t i * X t j)) x x); [|intros; unfold emp_cov, Rdiv; ring|auto].
    rewrite quad_scale. apply Rmult_le_pos; [left; apply Rinv_0_lt_compat, lt_0_INR; lia|]. apply (gram_psd N (S T) (fun i t => X t i)).
Qed.
