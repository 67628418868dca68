(** Proofs: Jorion and minimum variance, Ledoit-Wolf intensity, scale equivariance, POET, Tyler. *)
From Coq Require Import FunctionalExtensionality.
From Verif Require Import RBase QpBase SortLib MomModel MomSpec MomProofs.
Open Scope R_scope.
Open Scope list_scope.

(** ** Symmetric bilinear forms *)
Lemma dot_mv_sym n A u v : symmetric n A -> dot n u (mv n A v) = dot n v (mv n A u).
Proof.
  intros H. unfold mv, dot.
  rewrite (sumn_ext n _ (fun i => sumn n (fun j => u i * A i j * v j))) by (intros i Hi; rewrite <- sumn_scale; apply sumn_ext; intros; ring).
  rewrite sumn_swap. apply sumn_ext. intros j Hj. rewrite <- sumn_scale. apply sumn_ext. intros i Hi. rewrite (H i j Hi Hj). ring.
Qed.
Lemma inverse_dot_sym n A B u v : is_inverse n A B -> symmetric n A -> dot n u (mv n B v) = dot n v (mv n B u).
Proof.
  intros HI HS.
  assert (E : forall x y, dot n x (mv n B y) = dot n (mv n B y) (mv n A (mv n B x))).
  { intros x y. rewrite dot_comm. apply dot_ext; [auto|]. intros i Hi. symmetry. apply mv_inverse; auto. }
  rewrite (E u v), (E v u). apply dot_mv_sym. exact HS.
Qed.
Lemma dot_ones n x : dot n ones x = sumn n x.
Proof. unfold dot, ones. apply sumn_ext. intros; ring. Qed.
Lemma dot_ones_r n x : dot n x ones = sumn n x.
Proof. rewrite dot_comm. apply dot_ones. Qed.
Lemma mv_scale n A k x i : mv n A (fun j => k * x j) i = k * mv n A x i.
Proof. unfold mv. apply dot_scale_r. Qed.

Lemma quad_minus n A x y : symmetric n A ->
  quad n A (fun i => x i - y i) = quad n A x - 2 * dot n x (mv n A y) + quad n A y.
Proof.
  intros H. rewrite !quad_mv.
  rewrite (dot_ext n _ (mv n A (fun i => x i - y i)) (fun i => x i - y i) (fun i => mv n A x i - mv n A y i)); auto.
  2:{ intros i _. unfold mv. apply dot_minus_r. }
  rewrite dot_minus_r. rewrite (dot_comm n (fun i => x i - y i) (mv n A x)), (dot_comm n (fun i => x i - y i) (mv n A y)).
  rewrite !dot_minus_r. rewrite (dot_comm n (mv n A x) x), (dot_comm n (mv n A x) y), (dot_comm n (mv n A y) x), (dot_comm n (mv n A y) y).
  rewrite (dot_mv_sym n A y x H). lra.
Qed.

(** The portfolio [A^-1 1 / (1' A^-1 1)] has the least variance. *)
Lemma gmv_min n A B : is_inverse n A B -> symmetric n A -> psd n A -> 0 < dot n ones (mv n B ones) ->
  min_variance_portfolio n A (fun i => mv n B ones i / dot n ones (mv n B ones)).
Proof.
  intros HI HS HP Hb. set (b := dot n ones (mv n B ones)) in *. set (w := fun i => mv n B ones i / b).
  assert (Hw : sumn n w = 1).
  { unfold w. rewrite sumn_div. rewrite <- dot_ones. fold b. field. lra. }
  assert (HA : forall i, (i < n)%nat -> mv n A w i = / b).
  { intros i Hi. assert (E : w = (fun j => / b * mv n B ones j)) by (apply functional_extensionality; intros; unfold w, Rdiv; ring).
    rewrite E, mv_scale, (mv_inverse n A B ones i HI Hi). unfold ones. ring. }
  assert (Hx : forall x, sumn n x = 1 -> dot n x (mv n A w) = / b).
  { intros x Hs. rewrite (dot_ext n x (mv n A w) x (fun i => / b * ones i)); auto.
    - rewrite dot_scale_r, dot_ones_r, Hs. ring.
    - intros i Hi. rewrite HA by auto. unfold ones. ring. }
  split; [exact Hw|]. intros x Hs. pose proof (HP (fun i => x i - w i)) as H. rewrite quad_minus in H by exact HS.
  rewrite (Hx x Hs) in H. pose proof (Hx w Hw) as E. rewrite <- quad_mv in E. rewrite E in *. lra.
Qed.

Lemma jit_pos : 0 < jit. Proof. unfold jit. lra. Qed.

Lemma jorion_facts inv N mu sr sc S T out :
  (forall n A B, inv n A = Some B -> is_inverse n A B) -> psd N S ->
  shrink_mean_jorion inv N mu sr sc S T = Ok out ->
  exists w v Si,
    is_inverse N (fun i j => symmetrise S i j + jit * eye i j) Si /\
    min_variance_portfolio N (fun i j => symmetrise S i j + jit * eye i j) w /\
    let g := dot N w mu in
    v = (INR N + 2) / (INR N + 2 + INR (Z.to_nat T) * quad N Si (fun i => mu i - g)) /\
    0 < v <= 1 /\
    (forall i, out i = (1 - v) * mu i + v * g) /\
    dot N w out = g.
Proof.
  intros Hinv HS H. apply jorion_ok in H as (HT & HN & Si & ES & H). apply Hinv in ES. cbv zeta in H.
  set (A := fun i j => symmetrise S i j + jit * eye i j) in *.
  assert (HAs : symmetric N A) by (apply sym_shift, symmetrise_sym).
  assert (HAp : forall y, jit * dot N y y <= quad N A y).
  { intros y. unfold A. rewrite quad_shift, quad_symmetrise. specialize (HS y). lra. }
  assert (HApsd : psd N A).
  { intros y. specialize (HAp y). pose proof (dot_self_nonneg N y). pose proof jit_pos. nra. }
  assert (HB : psd N Si) by (apply (inverse_psd N A); auto).
  assert (Hb : 0 < dot N ones (mv N Si ones)).
  { rewrite <- quad_mv. apply (inverse_pos N A Si jit); auto; [apply jit_pos|]. exists 0%nat. split; [lia|]. unfold ones. lra. }
  set (b := dot N ones (mv N Si ones)) in *. set (w := fun i => mv N Si ones i / b).
  assert (Hg : dot N w mu = dot N ones (mv N Si mu) / b).
  { rewrite (inverse_dot_sym N A Si ones mu ES HAs). unfold w, Rdiv.
    rewrite (dot_ext N _ mu (fun i => / b * mv N Si ones i) mu); [|intros; ring|auto]. rewrite dot_scale_l, (dot_comm N (mv N Si ones) mu). ring. }
  rewrite <- Hg in H. set (g := dot N w mu) in *.
  assert (Hq := HB (fun i => mu i - g)). set (q := quad N Si (fun i => mu i - g)) in *.
  assert (HTr : 0 <= INR (Z.to_nat T)) by apply pos_INR. assert (HNr : 0 <= INR N) by apply pos_INR.
  assert (Hv : 0 < jorion_v N (Z.to_nat T) q <= 1).
  { unfold jorion_v. assert (0 < INR N + 2 + INR (Z.to_nat T) * q) by nra. split.
    - apply Rmult_lt_0_compat; [lra|apply Rinv_0_lt_compat; auto].
    - apply Rmult_le_reg_r with (INR N + 2 + INR (Z.to_nat T) * q); auto. unfold Rdiv. rewrite Rmult_assoc, Rinv_l by lra. nra. }
  rewrite clip01_id in H by lra. set (v := jorion_v N (Z.to_nat T) q) in *.
  exists w, v, Si. split; [exact ES|]. split; [apply gmv_min; auto|]. cbv zeta. split; [reflexivity|]. split; [exact Hv|].
  assert (Ho : forall i, out i = (1 - v) * mu i + v * g) by (intros i; rewrite H; ring). split; [exact Ho|].
  assert (Hw1 : sumn N w = 1).
  { unfold w. rewrite sumn_div. rewrite <- dot_ones. fold b. field. lra. }
  rewrite (dot_ext N w out w (fun i => (1 - v) * mu i + v * g)); auto.
  rewrite (dot_plus_r N w (fun i => (1 - v) * mu i)), dot_scale_r. fold g.
  assert (E : dot N w (fun _ => v * g) = v * g * sumn N w) by (unfold dot; rewrite sumn_scale_r; ring). rewrite E, Hw1. ring.
Qed.

(** ** Ledoit-Wolf: the intensity towards the identity target *)
Lemma sumn_ge0_mean T f : (forall t, (t < T)%nat -> 0 <= f t) -> (1 <= T)%nat -> 0 <= sumn T f / INR T.
Proof. intros H HT. apply Rmult_le_pos; [apply sumn_nonneg; auto|apply Rlt_le, Rinv_0_lt_compat, lt_0_INR; lia]. Qed.

Lemma lw_pi_emp T X i j : (1 <= T)%nat ->
  lw_pi T X (emp_cov T X) i j = sumn T (fun t => X t i ^ 2 * X t j ^ 2) / INR T - emp_cov T X i j ^ 2.
Proof.
  intros HT. assert (H0 : INR T <> 0) by (apply Rgt_not_eq, lt_0_INR; lia). unfold lw_pi.
  set (s := emp_cov T X i j).
  rewrite (sumn_ext T _ (fun t => X t i ^ 2 * X t j ^ 2 - 2 * s * (X t i * X t j) + s ^ 2)) by (intros; ring).
  rewrite sumn_plus, sumn_minus, sumn_scale, sumn_const.
  assert (E : sumn T (fun t => X t i * X t j) = INR T * s) by (unfold s, emp_cov; field; auto). rewrite E. field. auto.
Qed.

Lemma lw_identity_numerator T N X : (1 <= T)%nat -> (2 <= N)%nat ->
  (forall i, (i < N)%nat -> INR N / (INR N - 1) * emp_cov T X i i ^ 2 <= fourth_moment T X i) ->
  total N (lw_pi T X (emp_cov T X)) / (INR N * INR N) - trace N (lw_pi T X (emp_cov T X)) <= 0.
Proof.
  intros HT HN Hk. assert (HNr : 2 <= INR N) by (apply (le_INR 2); exact HN).
  assert (HTr : 0 < INR T) by (apply lt_0_INR; lia).
  set (m4 := sumn N (fourth_moment T X)).
  assert (Et : trace N (lw_pi T X (emp_cov T X)) = m4 - sumn N (fun i => emp_cov T X i i ^ 2)).
  { unfold trace, m4. rewrite <- sumn_minus. apply sumn_ext. intros i Hi. rewrite lw_pi_emp by exact HT. f_equal. unfold fourth_moment.
    f_equal. apply sumn_ext. intros; ring. }
  assert (Ep : total N (lw_pi T X (emp_cov T X)) <= INR N * m4).
  { unfold total. rewrite (sumn_ext N _ (fun i => sumn N (fun j => sumn T (fun t => X t i ^ 2 * X t j ^ 2) / INR T) - sumn N (fun j => emp_cov T X i j ^ 2)))
      by (intros i Hi; rewrite <- sumn_minus; apply sumn_ext; intros j Hj; apply lw_pi_emp; exact HT).
    rewrite sumn_minus.
    assert (0 <= sumn N (fun i => sumn N (fun j => emp_cov T X i j ^ 2))) by (apply sumn_nonneg; intros; apply sumn_nonneg; intros; apply pow2_ge_0).
    assert (E : sumn N (fun i => sumn N (fun j => sumn T (fun t => X t i ^ 2 * X t j ^ 2) / INR T)) = sumn T (fun t => (sumn N (fun i => X t i ^ 2)) ^ 2) / INR T).
    { rewrite (sumn_ext N _ (fun i => sumn T (fun t => X t i ^ 2 * sumn N (fun j => X t j ^ 2)) / INR T)).
      - rewrite sumn_div. f_equal. rewrite sumn_swap. apply sumn_ext. intros t Ht. rewrite sumn_scale_r. ring.
      - intros i Hi. rewrite sumn_div. f_equal. rewrite sumn_swap. apply sumn_ext. intros t Ht. rewrite sumn_scale. reflexivity. }
    assert (L : sumn T (fun t => (sumn N (fun i => X t i ^ 2)) ^ 2) / INR T <= INR N * m4).
    { assert (E2 : INR N * m4 = sumn T (fun t => INR N * sumn N (fun i => X t i ^ 2 * X t i ^ 2)) / INR T).
      { unfold m4, fourth_moment. rewrite sumn_div, sumn_scale. unfold Rdiv. rewrite <- Rmult_assoc. f_equal. f_equal.
        rewrite sumn_swap. apply sumn_ext. intros t Ht. apply sumn_ext. intros; ring. }
      rewrite E2. apply Rmult_le_compat_r; [apply Rlt_le, Rinv_0_lt_compat; lra|]. apply sumn_le. intros t Ht.
      apply (sum_sq_le N (fun i => X t i ^ 2)). }
    rewrite E. lra. }
  assert (Ed : INR N * sumn N (fun i => emp_cov T X i i ^ 2) <= (INR N - 1) * m4).
  { unfold m4. rewrite <- !sumn_scale. apply sumn_le. intros i Hi. specialize (Hk i Hi).
    apply (Rmult_le_compat_l (INR N - 1)) in Hk; [|lra].
    replace ((INR N - 1) * (INR N / (INR N - 1) * emp_cov T X i i ^ 2)) with (INR N * emp_cov T X i i ^ 2) in Hk by (field; lra). exact Hk. }
  rewrite Et. set (D := sumn N (fun i => emp_cov T X i i ^ 2)) in *. set (P := total N (lw_pi T X (emp_cov T X))) in *.
  assert (P / (INR N * INR N) <= m4 / INR N).
  { apply Rmult_le_reg_r with (INR N * INR N); [nra|]. replace (P / (INR N * INR N) * (INR N * INR N)) with P by (field; lra).
    replace (m4 / INR N * (INR N * INR N)) with (INR N * m4) by (field; lra). exact Ep. }
  assert (D <= m4 - m4 / INR N).
  { apply Rmult_le_reg_l with (INR N); [lra|]. replace (INR N * (m4 - m4 / INR N)) with ((INR N - 1) * m4) by (field; lra). exact Ed. }
  lra.
Qed.

Lemma clip_ratio_nonpos a b d : a <= 0 -> 0 <= b -> clip_ratio a b = Some d -> d = 0.
Proof.
  unfold clip_ratio. intros Ha Hb. destruct (Reqb_spec b 0) as [E|E].
  - destruct (Reqb_spec a 0); [discriminate|]. destruct (Rltb_spec 0 a); [lra|]. intros H. injection H as <-. reflexivity.
  - intros H. injection H as <-. assert (a / b <= 0).
    { apply Rmult_le_reg_r with b; [lra|]. unfold Rdiv. rewrite Rmult_assoc, Rinv_l by auto. lra. }
    unfold clip01. rewrite Rmax_right by auto. rewrite Rmin_left by lra. reflexivity.
Qed.

Lemma lw_identity_zero T N X d : (1 <= T)%nat -> (2 <= N)%nat ->
  (forall i, (i < N)%nat -> INR N / (INR N - 1) * emp_cov T X i i ^ 2 <= fourth_moment T X i) ->
  lw_delta T N X (emp_cov T X) LwIdentity = Some d -> d = 0.
Proof.
  intros HT HN Hk H. unfold lw_delta in H. apply clip_ratio_nonpos in H; auto; [|apply frob2_nonneg].
  apply lw_identity_numerator; auto.
Qed.

(** ** Scale equivariance *)
Definition mscale (k : R) (A : mat) : mat := fun i j => k * A i j.
Lemma symmetrise_scale k A : symmetrise (mscale k A) = mscale k (symmetrise A).
Proof. apply functional_extensionality; intros i. apply functional_extensionality; intros j. unfold symmetrise, mscale. field. Qed.
Lemma center_scale T k X : center T (mscale k X) = mscale k (center T X).
Proof.
  apply functional_extensionality; intros t. apply functional_extensionality; intros i. unfold center, mscale.
  rewrite sumn_scale. unfold Rdiv. ring.
Qed.
Lemma emp_cov_scale T k X : emp_cov T (mscale k X) = mscale (k * k) (emp_cov T X).
Proof.
  apply functional_extensionality; intros i. apply functional_extensionality; intros j. unfold emp_cov, mscale.
  rewrite (sumn_ext T _ (fun t => (k * k) * (X t i * X t j))) by (intros; ring). rewrite sumn_scale. unfold Rdiv. ring.
Qed.
Lemma trace_mscale n k A : trace n (mscale k A) = k * trace n A.
Proof. apply trace_scale. Qed.
Lemma frob2_scale n k A : frob2 n (mscale k A) = k * k * frob2 n A.
Proof.
  unfold frob2, mscale. rewrite <- sumn_scale. apply sumn_ext. intros i Hi. rewrite <- sumn_scale. apply sumn_ext. intros; ring.
Qed.
Lemma total_scale n k A : total n (mscale k A) = k * total n A.
Proof. unfold total, mscale. rewrite <- sumn_scale. apply sumn_ext. intros. rewrite sumn_scale. reflexivity. Qed.
Lemma lw_pi_scale T k X S : lw_pi T (mscale k X) (mscale (k * k) S) = mscale (k * k * (k * k)) (lw_pi T X S).
Proof.
  apply functional_extensionality; intros i. apply functional_extensionality; intros j. unfold lw_pi, mscale.
  rewrite (sumn_ext T _ (fun t => (k * k * (k * k)) * (X t i * X t j - S i j) ^ 2)) by (intros; ring). rewrite sumn_scale. unfold Rdiv. ring.
Qed.
Lemma lw_F_scale N k S : lw_F N (mscale k S) LwIdentity = mscale k (lw_F N S LwIdentity).
Proof.
  apply functional_extensionality; intros i. apply functional_extensionality; intros j. cbn [lw_F]. rewrite trace_mscale. unfold mscale, Rdiv. ring.
Qed.
Lemma mscale_minus k A B : (fun i j => mscale k A i j - mscale k B i j) = mscale k (fun i j => A i j - B i j).
Proof. apply functional_extensionality; intros i. apply functional_extensionality; intros j. unfold mscale. ring. Qed.

Lemma clip_ratio_scale c a b : 0 < c -> clip_ratio (c * a) (c * b) = clip_ratio a b.
Proof.
  intros Hc. unfold clip_ratio.
  destruct (Reqb_spec (c * b) 0), (Reqb_spec b 0); try (exfalso; nra).
  - destruct (Reqb_spec (c * a) 0), (Reqb_spec a 0); try (exfalso; nra); auto.
    destruct (Rltb_spec 0 (c * a)), (Rltb_spec 0 a); try (exfalso; nra); auto.
  - f_equal. f_equal. field. split; lra.
Qed.

Lemma lw_delta_scale T N k X S : k <> 0 ->
  lw_delta T N (mscale k X) (mscale (k * k) S) LwIdentity = lw_delta T N X S LwIdentity.
Proof.
  intros Hk. unfold lw_delta. rewrite lw_pi_scale, lw_F_scale, mscale_minus, frob2_scale, total_scale, trace_mscale.
  set (c := k * k * (k * k)). assert (0 < c) by (unfold c; assert (0 < k * k) by nra; nra).
  rewrite <- (clip_ratio_scale c (total N (lw_pi T X S) / (INR N * INR N) - trace N (lw_pi T X S))) by auto.
  f_equal. unfold Rdiv. ring.
Qed.

Lemma psd_mscale n k A : 0 <= k -> psd n A -> psd n (mscale k A).
Proof. apply psd_scale. Qed.

Lemma lw_scale eig T N R_ sr sc S k out : correct_eig eig -> psd N S -> (1 <= N)%nat -> k <> 0 ->
  shrink_covariance_ledoit_wolf eig T N R_ sr sc S LwIdentity = Ok out ->
  exists out', shrink_covariance_ledoit_wolf eig T N (mscale k R_) sr sc (mscale (k * k) S) LwIdentity = Ok out' /\
    mat_eq N out' (mscale (k * k) out).
Proof.
  intros HE HS HN Hk H. destruct (lw_ok _ _ _ _ _ _ _ _ _ HE HS HN H) as (_ & d & Hd & Ed & HM & _).
  assert (HS' : psd N (mscale (k * k) S)) by (apply psd_mscale; [nra|auto]).
  assert (HO : exists out', shrink_covariance_ledoit_wolf eig T N (mscale k R_) sr sc (mscale (k * k) S) LwIdentity = Ok out').
  { unfold shrink_covariance_ledoit_wolf in *. destruct (_ || _)%bool; [discriminate|].
    rewrite center_scale, symmetrise_scale, lw_delta_scale, Ed by auto. 
    match goal with |- exists _, bind (ensure_psd eig N ?M jit) _ = _ => assert (HP : psd N M) end.
    { apply psd_convex; auto; [apply lw_F_psd; auto; try congruence|].
      - intros x. rewrite <- symmetrise_scale, quad_symmetrise. apply HS'.
      - rewrite <- symmetrise_scale. apply symmetrise_sym.
      - intros x. rewrite <- symmetrise_scale, quad_symmetrise. apply HS'. }
    destruct (ensure_psd_id eig N _ HE ltac:(lia) HP) as (P & EP & _). rewrite EP. cbn [bind]. eauto. }
  destruct HO as (out' & HO). exists out'. split; [exact HO|].
  destruct (lw_ok _ _ _ _ _ _ _ _ _ HE HS' HN HO) as (_ & d' & Hd' & Ed' & HM' & _).
  rewrite center_scale, symmetrise_scale, lw_delta_scale, Ed in Ed' by auto. injection Ed' as <-.
  intros i j Hi Hj. rewrite HM' by auto. unfold mscale at 3. rewrite HM by auto. rewrite symmetrise_scale, lw_F_scale. unfold mscale. ring.
Qed.

Lemma oas_shrink_scale T N k E : 0 < k -> oas_shrinkage T N (mscale k E) = oas_shrinkage T N E.
Proof.
  intros Hk. unfold oas_shrinkage. rewrite frob2_scale, trace_mscale.
  set (a := frob2 N E). set (m := trace N E). set (n := INR N).
  assert (E1 : (INR T + 1 - 2 / n) * (k * k * a / (n * n) - k * m / n * (k * m / n) / n) = k * k * ((INR T + 1 - 2 / n) * (a / (n * n) - m / n * (m / n) / n))) by (unfold Rdiv; ring).
  rewrite E1. set (den := (INR T + 1 - 2 / n) * (a / (n * n) - m / n * (m / n) / n)).
  assert (0 < k * k) by nra.
  destruct (Rleb_spec (k * k * den) 0), (Rleb_spec den 0); try (exfalso; nra); auto.
  f_equal. replace ((1 - 2 / n) * (k * k * a / (n * n)) + k * m / n * (k * m / n)) with (k * k * ((1 - 2 / n) * (a / (n * n)) + m / n * (m / n))) by (unfold Rdiv; ring).
  set (num := (1 - 2 / n) * (a / (n * n)) + m / n * (m / n)). clearbody num den. field. split; nra.
Qed.

Lemma oas_total eig T N X c : correct_eig eig -> (1 <= T)%nat -> (1 <= N)%nat -> exists out, shrink_covariance_oas eig T N X c = Ok out.
Proof.
  intros HE HT HN. unfold shrink_covariance_oas. destruct (Nat.eqb_spec T 0); [lia|]. destruct (Nat.eqb_spec N 0); [lia|]. cbn [orb].
  destruct (Nat.eqb_spec N 1); [eauto|]. match goal with |- exists _, ensure_psd eig N ?M jit = _ => destruct (ensure_psd_ok eig N M jit HE HN jit_pos) as (P & k & EP & _) end. eauto.
Qed.

Lemma oas_scale eig T N X c k out out' : correct_eig eig -> k <> 0 ->
  shrink_covariance_oas eig T N X c = Ok out -> shrink_covariance_oas eig T N (mscale k X) c = Ok out' ->
  mat_eq N out' (mscale (k * k) out).
Proof.
  intros HE Hk H H'. destruct (oas_ok _ _ _ _ _ _ HE H) as (s & _ & HM & Es). destruct (oas_ok _ _ _ _ _ _ HE H') as (s' & _ & HM' & Es').
  assert (E : emp_cov T (if c then mscale k X else center T (mscale k X)) = mscale (k * k) (emp_cov T (if c then X else center T X))).
  { destruct c; [apply emp_cov_scale|]. rewrite center_scale. apply emp_cov_scale. }
  rewrite E in HM', Es'. set (E0 := emp_cov T (if c then X else center T X)) in *. intros i j Hi Hj.
  destruct (Nat.eq_dec N 1) as [->|HN].
  - unfold shrink_covariance_oas in H, H'. destruct (Nat.eqb T 0); [discriminate|]. cbn [orb] in H, H'. simpl in H, H'.
    injection H as <-. injection H' as <-. destruct c; rewrite ?center_scale, emp_cov_scale; reflexivity.
  - rewrite HM' by auto. unfold mscale at 3. rewrite HM by auto. rewrite Es' by auto. rewrite Es by auto.
    rewrite oas_shrink_scale by nra. rewrite trace_mscale. unfold mscale, Rdiv. ring.
Qed.

(** ** POET *)
Lemma soft_threshold_off A tau i j : 0 <= tau -> i <> j ->
  Rabs (soft_threshold A tau i j - A i j) <= tau /\ Rabs (soft_threshold A tau i j) <= Rabs (A i j) /\
  (Rabs (A i j) <= tau -> soft_threshold A tau i j = 0) /\ 0 <= soft_threshold A tau i j * A i j.
Proof.
  intros Ht Hij. unfold soft_threshold. destruct (Nat.eqb_spec i j); [congruence|]. set (x := A i j).
  unfold rsign. destruct (Rltb_spec 0 x).
  - rewrite (Rabs_right x) by lra. unfold Rmax. destruct (Rle_dec (x - tau) 0).
    + rewrite Rmult_0_r. rewrite Rabs_R0, Rabs_left by lra. repeat split; intros; lra.
    + replace (1 * (x - tau) - x) with (- tau) by ring. rewrite Rabs_Ropp, (Rabs_right tau), Rabs_right by lra. repeat split; intros; nra.
  - destruct (Rltb_spec x 0).
    + rewrite (Rabs_left x) by lra. unfold Rmax. destruct (Rle_dec (- x - tau) 0).
      * rewrite Rmult_0_r. rewrite Rabs_R0, Rabs_right by lra. repeat split; intros; lra.
      * replace (-1 * (- x - tau) - x) with tau by ring. rewrite (Rabs_right tau), Rabs_left by lra. repeat split; intros; nra.
    + assert (x = 0) by lra. rewrite H. rewrite Rmult_0_l, Rminus_0_r, Rabs_R0. repeat split; intros; lra.
Qed.

Lemma center_mean0 T X i : (1 <= T)%nat -> sumn T (fun t => center T X t i) = 0.
Proof.
  intros HT. unfold center. rewrite sumn_minus, sumn_const. field. apply Rgt_not_eq, lt_0_INR. lia.
Qed.

Lemma poet_scale_pos T X b i : 0 < poet_scale T X b i.
Proof. unfold poet_scale. destruct b; [|lra]. destruct (Rleb_spec (sqrt (np_cov T X 1 i i)) (1 / 1000000000000)); lra. Qed.

Lemma poet_standardised T X b i j : (2 <= T)%nat ->
  let sc := poet_scale T X b in
  np_cov T (fun t i => center T X t i / sc i) 1 i j = np_cov T X 1 i j / (sc i * sc j).
Proof.
  intros HT sc. assert (Hs : forall i, sc i <> 0) by (intros; apply Rgt_not_eq, poet_scale_pos).
  assert (E : forall t i, center T (fun t i => center T X t i / sc i) t i = center T X t i / sc i).
  { intros t k. unfold center at 1. rewrite sumn_div, center_mean0 by lia. field. split; [apply Hs|apply Rgt_not_eq, lt_0_INR; lia]. }
  unfold np_cov. rewrite (sumn_ext T _ (fun t => / (sc i * sc j) * (center T X t i * center T X t j))).
  - rewrite sumn_scale. unfold Rdiv. ring.
  - intros t Ht. rewrite !E. field. split; apply Hs.
Qed.

Lemma np_cov_sym T X d i j : np_cov T X d i j = np_cov T X d j i.
Proof. unfold np_cov. f_equal. apply sumn_ext. intros; ring. Qed.

Lemma poet_sigma_entries T k X B tau b i j : (2 <= T)%nat -> 0 <= tau ->
  let sc := poet_scale T X b in
  Rabs (poet_sigma T k X B tau b i j - np_cov T X 1 i j) <= tau * (sc i * sc j) /\
  poet_sigma T k X B tau b i i = np_cov T X 1 i i /\
  poet_sigma T k X B tau b i j = poet_sigma T k X B tau b j i.
Proof.
  intros HT Ht sc. assert (Hs : forall i, 0 < sc i) by (intros; apply poet_scale_pos).
  assert (Hst := fun i j => poet_standardised T X b i j HT). cbv zeta in Hst. fold sc in Hst.
  unfold poet_sigma. fold sc.
  set (Ss := np_cov T (fun t i => center T X t i / sc i) 1) in *. set (F := fun i j => sumn k (fun f => B i f * B j f)).
  assert (HSs : forall a b, Ss a b = Ss b a) by (intros; apply np_cov_sym).
  assert (HF : forall a b, F a b = F b a) by (intros; unfold F; apply sumn_ext; intros; ring).
  set (rs := symmetrise (fun i j => Ss i j - F i j)). 
  assert (Hrs : forall a b, rs a b = Ss a b - F a b) by (intros; unfold rs, symmetrise; rewrite (HSs b0 a), (HF b0 a); lra).
  assert (Hso : forall a b, soft_threshold rs tau b a = soft_threshold rs tau a b).
  { intros a c. unfold soft_threshold. rewrite (Nat.eqb_sym c a), !Hrs, (HSs c a), (HF c a). reflexivity. }
  set (Sg := symmetrise (fun i j => F i j + soft_threshold rs tau i j)).
  assert (HSg : forall a b, Sg a b = F a b + soft_threshold rs tau a b) by (intros; unfold Sg, symmetrise; rewrite (HF b0 a), (Hso a b0); lra).
  assert (Hdiag : forall a, Sg a a = Ss a a).
  { intros a. rewrite HSg. unfold soft_threshold. rewrite Nat.eqb_refl, Hrs. lra. }
  assert (Hoff : forall a c, Rabs (Sg a c - Ss a c) <= tau).
  { intros a c. destruct (Nat.eq_dec a c) as [->|Hne]; [rewrite Hdiag; replace (Ss c c - Ss c c) with 0 by ring; rewrite Rabs_R0; lra|].
    rewrite HSg. destruct (soft_threshold_off rs tau a c Ht Hne) as (H & _).
    rewrite Hrs in H. replace (F a c + soft_threshold rs tau a c - Ss a c) with (soft_threshold rs tau a c - (Ss a c - F a c)) by ring. exact H. }
  assert (HSgs : forall a c, Sg a c = Sg c a) by (intros; rewrite !HSg, (HF a c), (Hso a c); reflexivity).
  assert (Hout : forall a c, symmetrise (fun i j => sc i * Sg i j * sc j) a c = sc a * Sg a c * sc c) by (intros; unfold symmetrise; rewrite (HSgs c a); lra).
  assert (Hnp : forall a c, np_cov T X 1 a c = sc a * Ss a c * sc c).
  { intros a c. rewrite Hst. field. split; apply Rgt_not_eq, Hs. }
  rewrite !Hout, !Hnp. split; [|split].
  - replace (sc i * Sg i j * sc j - sc i * Ss i j * sc j) with ((Sg i j - Ss i j) * (sc i * sc j)) by ring.
    rewrite Rabs_mult, (Rabs_right (sc i * sc j)) by (apply Rle_ge, Rlt_le, Rmult_lt_0_compat; apply Hs).
    apply Rmult_le_compat_r; [apply Rlt_le, Rmult_lt_0_compat; apply Hs|apply Hoff].
  - rewrite Hdiag. reflexivity.
  - rewrite (HSgs i j). ring.
Qed.

(** ** Tyler *)
Lemma tyler_w2_pos N q : (1 <= N)%nat -> 0 < tyler_w2 N q.
Proof.
  intros HN. unfold tyler_w2. assert (0 < INR N) by (apply lt_0_INR; lia). apply Rmin_glb_lt; [|lra].
  apply Rlt_le_trans with (INR N / Rmax q (1 / 1000000)); [|apply Rmax_l]. apply Rmult_lt_0_compat; [auto|].
  apply Rinv_0_lt_compat. apply Rlt_le_trans with (1 / 1000000); [lra|apply Rmax_r].
Qed.
Lemma sum2_pos N T (f : nat -> nat -> R) i t : (i < N)%nat -> (t < T)%nat -> (forall a u, 0 <= f a u) -> 0 < f i t ->
  0 < sumn N (fun a => sumn T (f a)).
Proof.
  intros Hi Ht Hf Hp.
  assert (Hrow : forall a, 0 <= sumn T (f a)) by (intros; apply sumn_nonneg; auto).
  assert (Hnn : 0 <= sumn N (fun a => sumn T (f a))) by (apply sumn_nonneg; auto).
  destruct (Rle_lt_or_eq_dec _ _ Hnn) as [|E]; [auto|]. exfalso. symmetry in E.
  assert (E1 := sumn_nonneg_zero N (fun a => sumn T (f a)) (fun a _ => Hrow a) E i Hi). cbv beta in E1.
  assert (E2 := sumn_nonneg_zero T (f i) (fun u _ => Hf i u) E1 t Ht). lra.
Qed.
Lemma tyler_raw_trace pinv T N X C : (1 <= T)%nat -> (1 <= N)%nat -> (exists t i, (t < T)%nat /\ (i < N)%nat /\ X t i <> 0) ->
  0 < trace N (tyler_raw pinv T N X C).
Proof.
  intros HT HN (t & i & Ht & Hi & Hx). unfold tyler_raw. rewrite trace_symmetrise. unfold trace. rewrite sumn_div.
  apply Rmult_lt_0_compat; [|apply Rinv_0_lt_compat, lt_0_INR; lia].
  set (w := fun u => tyler_w2 N (quad N (pinv N C) (X u))). assert (Hw : forall u, 0 < w u) by (intros; apply tyler_w2_pos; auto).
  apply (sum2_pos N T (fun a u => w u * X u a * X u a) i t); auto.
  - intros a u. specialize (Hw u). nra.
  - specialize (Hw t). assert (0 < X t i * X t i) by nra. nra.
Qed.
Lemma trace_rescale N A : trace N A <> 0 -> trace N (rescale N A) = INR N.
Proof. intros H. unfold rescale, trace. rewrite sumn_scale_r. fold (trace N A). field. exact H. Qed.

Lemma tyler_update_trace pinv T N X C tg s : (1 <= T)%nat -> (1 <= N)%nat -> (exists t i, (t < T)%nat /\ (i < N)%nat /\ X t i <> 0) ->
  trace N tg = INR N -> trace N (tyler_update pinv T N X C tg s) = INR N.
Proof.
  intros HT HN Hx Ht. unfold tyler_update.
  assert (E : trace N (rescale N (tyler_raw pinv T N X C)) = INR N) by (apply trace_rescale, Rgt_not_eq, tyler_raw_trace; auto).
  destruct (Rltb 0 s); [|exact E].
  rewrite (trace_plus N (fun i j => (1 - s) * rescale N (tyler_raw pinv T N X C) i j) (fun i j => s * tg i j)), !trace_scale, E, Ht. ring.
Qed.
Lemma tyler_loop_trace pinv T N X tg s tol fuel : forall C, (1 <= T)%nat -> (1 <= N)%nat -> (exists t i, (t < T)%nat /\ (i < N)%nat /\ X t i <> 0) ->
  trace N tg = INR N -> trace N C = INR N \/ (1 <= fuel)%nat -> trace N (tyler_loop pinv T N X tg s tol fuel C) = INR N.
Proof.
  induction fuel as [|k IH]; intros C HT HN Hx Ht Hc; cbn [tyler_loop]; [destruct Hc; [auto|lia]|].
  assert (E := tyler_update_trace pinv T N X C tg s HT HN Hx Ht). destruct (tyler_converged _ _ _ _); [exact E|]. apply IH; auto.
Qed.

Lemma np_cov_psd T N X : (2 <= T)%nat -> psd N (np_cov T X 1).
Proof.
  intros HT x. unfold np_cov. rewrite (quad_ext N _ (fun i j => / INR (T - 1) * sumn T (fun t => center T X t i * center T X t j)) x x); auto.
  - rewrite quad_scale. pose proof (gram_psd N T (fun i t => center T X t i) x) as H. cbv beta in H.
    apply Rmult_le_pos; [apply Rlt_le, Rinv_0_lt_compat, lt_0_INR; lia|exact H].
  - intros; unfold Rdiv; ring.
Qed.

Lemma center_center T X t i : (1 <= T)%nat -> center T (center T X) t i = center T X t i.
Proof. intros HT. unfold center at 1. rewrite center_mean0 by exact HT. field. apply Rgt_not_eq, lt_0_INR. lia. Qed.
Lemma np_cov_center T X d i j : (1 <= T)%nat -> np_cov T (center T X) d i j = np_cov T X d i j.
Proof. intros HT. unfold np_cov. f_equal. apply sumn_ext. intros t Ht. rewrite !center_center by exact HT. reflexivity. Qed.

(** The returned matrix has the total variance of the sample covariance divided by the number of assets. *)
Lemma tyler_trace eig pinv T N R_ s target tol m out : correct_eig eig -> (1 <= m)%nat ->
  (exists t i, (t < T)%nat /\ (i < N)%nat /\ center T R_ t i <> 0) ->
  (forall r c M P, target = Some (r, c, M) -> ensure_psd eig N (symmetrise M) jit = Ok P -> trace N P <> 0) ->
  robust_covariance_tyler eig pinv T N R_ s target tol m false = Ok out ->
  trace N out = trace N (np_cov T R_ 1) / INR N.
Proof.
  intros HE Hm Hx Htg H. unfold robust_covariance_tyler in H.
  destruct (Nat.eqb_spec T 0); [discriminate|]. destruct (Nat.eqb_spec N 0); [discriminate|]. cbn [orb] in H.
  destruct (negb _); [discriminate|]. destruct (Nat.leb_spec N 1); [discriminate|]. destruct (Nat.leb_spec T 1); [discriminate|]. cbn [orb] in H.
  apply bind_ok in H as (Sc & E1 & H). apply bind_ok in H as (tg & E2 & H). cbv zeta in H. destruct (Nat.eqb_spec m 0); [discriminate|]. injection H as <-.
  assert (HP : psd N (np_cov T (center T R_) 1)) by (apply np_cov_psd; lia).
  destruct (ensure_psd_id eig N _ HE ltac:(lia) HP) as (P & EP & HPe). rewrite EP in E1. injection E1 as <-.
  assert (EtP : trace N P = trace N (np_cov T R_ 1)).
  { transitivity (trace N (symmetrise (np_cov T (center T R_) 1))); [apply sumn_ext; intros; apply HPe|]. rewrite trace_symmetrise.
    apply sumn_ext. intros i Hi. apply np_cov_center. lia. }
  assert (Hpos : 0 < trace N P).
  { rewrite EtP. destruct Hx as (t & i & Ht & Hi & Hx). unfold trace, np_cov. rewrite sumn_div.
    apply Rmult_lt_0_compat; [|apply Rinv_0_lt_compat, lt_0_INR; lia].
    apply (sum2_pos N T (fun a u => center T R_ u a * center T R_ u a) i t); auto; [intros; nra|nra]. }
  assert (HN0 : 0 < INR N) by (apply lt_0_INR; lia).
  rewrite Nat.max_l by lia.
  assert (Htt : 0 < trace N P / INR N) by (apply Rmult_lt_0_compat; [auto|apply Rinv_0_lt_compat; auto]).
  destruct (Rleb_spec (trace N P / INR N) 0); [lra|].
  rewrite trace_symmetrise. unfold trace at 1. rewrite sumn_scale_r.
  match goal with |- sumn N (fun i => ?L i i) * _ = _ => change (sumn N (fun i => L i i)) with (trace N L) end.
  rewrite tyler_loop_trace; auto; [|lia|lia|].
  - rewrite EtP. field. lra.
  - apply trace_rescale. destruct target as [[[r c] M]|].
    + destruct (_ && _)%bool; [|discriminate]. apply (Htg r c M); auto.
    + injection E2 as <-. rewrite trace_eye. lra.
Qed.

Lemma tyler_raw_psd pinv T N X C : (1 <= T)%nat -> (1 <= N)%nat -> psd N (tyler_raw pinv T N X C).
Proof.
  intros HT HN x. unfold tyler_raw. rewrite quad_symmetrise. set (w := fun t => tyler_w2 N (quad N (pinv N C) (X t))).
  assert (E : quad N (fun i j => sumn T (fun t => w t * X t i * X t j) / INR T) x = sumn T (fun t => w t * (dot N (X t) x) ^ 2) / INR T).
  { unfold quad. rewrite (sumn_ext N _ (fun i => sumn T (fun t => w t * (X t i * x i * dot N (X t) x)) / INR T)).
    - rewrite sumn_div. f_equal. rewrite sumn_swap. apply sumn_ext. intros t Ht. rewrite sumn_scale, sumn_scale_r. fold (dot N (X t) x). ring.
    - intros i Hi. rewrite (sumn_ext N _ (fun j => sumn T (fun t => w t * (X t i * x i * (X t j * x j))) / INR T)).
      + rewrite sumn_div. f_equal. rewrite sumn_swap. apply sumn_ext. intros t Ht. rewrite sumn_scale, sumn_scale. reflexivity.
      + intros j Hj. unfold Rdiv. rewrite <- !sumn_scale_r. apply sumn_ext. intros; ring. }
  eapply Rle_trans; [|right; symmetry; exact E]. apply Rmult_le_pos; [|apply Rlt_le, Rinv_0_lt_compat, lt_0_INR; lia].
  apply sumn_nonneg. intros t _. apply Rmult_le_pos; [apply Rlt_le, tyler_w2_pos; exact HN|apply pow2_ge_0].
Qed.
Lemma tyler_update_psd pinv T N X C tg s : (1 <= T)%nat -> (1 <= N)%nat -> (exists t i, (t < T)%nat /\ (i < N)%nat /\ X t i <> 0) ->
  s <= 1 -> psd N tg -> psd N (tyler_update pinv T N X C tg s).
Proof.
  intros HT HN Hx Hs Htg. unfold tyler_update.
  assert (Hr : psd N (rescale N (tyler_raw pinv T N X C))).
  { apply (mat_eq_psd N (fun i j => (INR N / trace N (tyler_raw pinv T N X C)) * tyler_raw pinv T N X C i j)); [intros i j _ _; unfold rescale; ring|].
    apply psd_scale; [|apply tyler_raw_psd; auto]. apply Rmult_le_pos; [apply pos_INR|apply Rlt_le, Rinv_0_lt_compat, tyler_raw_trace; auto]. }
  destruct (Rltb_spec 0 s); [|exact Hr].
  apply (psd_plus N (fun i j => (1 - s) * rescale N (tyler_raw pinv T N X C) i j)); apply psd_scale; auto; lra.
Qed.
Lemma tyler_loop_psd pinv T N X tg s tol fuel : forall C, (1 <= T)%nat -> (1 <= N)%nat -> (exists t i, (t < T)%nat /\ (i < N)%nat /\ X t i <> 0) ->
  s <= 1 -> psd N tg -> psd N C \/ (1 <= fuel)%nat -> psd N (tyler_loop pinv T N X tg s tol fuel C).
Proof.
  induction fuel as [|k IH]; intros C HT HN Hx Hs Ht Hc; cbn [tyler_loop]; [destruct Hc; [auto|lia]|].
  assert (E := tyler_update_psd pinv T N X C tg s HT HN Hx Hs Ht). destruct (tyler_converged _ _ _ _); [exact E|]. apply IH; auto.
Qed.

(** With the identity target the loop's result is already positive semidefinite: the final repair does
    nothing. *)
Lemma tyler_psd_trace eig pinv T N R_ s tol m fix_ out : correct_eig eig -> (1 <= m)%nat ->
  (exists t i, (t < T)%nat /\ (i < N)%nat /\ center T R_ t i <> 0) ->
  robust_covariance_tyler eig pinv T N R_ s None tol m fix_ = Ok out ->
  psd N out /\ symmetric N out /\ trace N out = trace N (np_cov T R_ 1) / INR N.
Proof.
  intros HE Hm Hx H.
  assert (H0 : exists out0, robust_covariance_tyler eig pinv T N R_ s None tol m false = Ok out0 /\ symmetric N out0 /\ psd N out0 /\ (1 <= N)%nat /\
               (fix_ = false -> out = out0) /\ (fix_ = true -> ensure_psd eig N out0 jit = Ok out)).
  { unfold robust_covariance_tyler in *. destruct (Nat.eqb_spec T 0); [discriminate|]. destruct (Nat.eqb_spec N 0); [discriminate|]. cbn [orb] in *.
    destruct (Rleb_spec 0 s); [|discriminate]. destruct (Rleb_spec s 1); [|discriminate]. cbn [andb negb] in *.
    destruct (Nat.leb_spec N 1); [discriminate|]. destruct (Nat.leb_spec T 1); [discriminate|]. cbn [orb] in *.
    apply bind_ok in H as (Sc & E1 & H). rewrite E1. cbn [bind] in *. cbv zeta in *. destruct (Nat.eqb_spec m 0); [lia|]. eexists. split; [reflexivity|].
    split; [apply symmetrise_sym|]. split; [|split; [lia|]].
    - match goal with |- psd N (symmetrise (fun i j => ?L i j * ?k)) => set (LL := L); set (kk := k) end.
      intros x. rewrite quad_symmetrise. rewrite (quad_ext N _ (fun i j => kk * LL i j) x x) by (auto; intros; ring).
      rewrite quad_scale. apply Rmult_le_pos.
      + unfold kk. assert (HN0 : 0 < INR N) by (apply lt_0_INR; lia).
        apply Rmult_le_pos; [|apply Rlt_le, Rinv_0_lt_compat; auto]. destruct (Rleb_spec (trace N Sc / INR (Nat.max N 1)) 0); lra.
      + apply tyler_loop_psd; auto; try lia.
        apply (mat_eq_psd N (fun i j => (INR N / trace N eye) * eye i j)); [intros i j _ _; unfold rescale; ring|].
        apply psd_eye. rewrite trace_eye. apply Rmult_le_pos; [apply pos_INR|apply Rlt_le, Rinv_0_lt_compat, lt_0_INR; lia].
    - destruct fix_; split; intros E; try discriminate; [exact H|]. injection H as <-. reflexivity. }
  destruct H0 as (out0 & H0 & Hs0 & Hp0 & HN & Hf & Ht).
  assert (Etr := tyler_trace eig pinv T N R_ s None tol m out0 HE Hm Hx ltac:(intros; discriminate) H0).
  destruct fix_.
  - specialize (Ht eq_refl). destruct (ensure_psd_id eig N out0 HE ltac:(lia) Hp0) as (P & EP & HPe). rewrite EP in Ht. injection Ht as <-.
    assert (HM : mat_eq N P out0) by (intros i j Hi Hj; rewrite HPe; apply (symmetrise_id N out0 Hs0 i j Hi Hj)).
    split; [intros x; rewrite (mat_eq_quad N _ _ x HM); apply Hp0|]. split; [intros i j Hi Hj; rewrite !HM by auto; apply Hs0; auto|].
    rewrite (trace_ext N _ _ HM). exact Etr.
  - rewrite (Hf eq_refl). auto.
Qed.
