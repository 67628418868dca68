(** Proofs about moment estimation. *)
From Verif Require Import RBase QpBase SortLib MomModel MomSpec.
Open Scope R_scope.
Open Scope list_scope.

(** ** Linear algebra helpers *)
Lemma symmetrise_sym n A : symmetric n (symmetrise A).
Proof. intros i j _ _. unfold symmetrise. lra. Qed.
Lemma symmetrise_id n A : symmetric n A -> mat_eq n (symmetrise A) A.
Proof. intros H i j Hi Hj. unfold symmetrise. rewrite <- (H i j Hi Hj). lra. Qed.

Lemma quad_transpose n A x : quad n (fun i j => A j i) x = quad n A x.
Proof. unfold quad. rewrite sumn_swap. apply sumn_ext. intros i Hi. apply sumn_ext. intros j Hj. ring. Qed.
Lemma quad_symmetrise n A x : quad n (symmetrise A) x = quad n A x.
Proof.
  transitivity (quad n (fun i j => (1/2) * (A i j + A j i)) x).
  - apply quad_ext; auto. intros; unfold symmetrise; lra.
  - rewrite quad_scale, (quad_plus n A (fun i j => A j i)), quad_transpose. lra.
Qed.
Lemma quad_eye n x : quad n eye x = dot n x x.
Proof.
  unfold quad, dot, eye. apply sumn_ext. intros i Hi.
  rewrite (sumn_ext n _ (fun j => delta i j * (x i * x j))) by (intros; ring). rewrite sumn_delta_r by auto. reflexivity.
Qed.
Lemma quad_shift n A k x : quad n (fun i j => A i j + k * eye i j) x = quad n A x + k * dot n x x.
Proof. rewrite (quad_plus n A (fun i j => k * eye i j)), quad_scale, quad_eye. reflexivity. Qed.
Lemma mat_eq_quad n A B x : mat_eq n A B -> quad n A x = quad n B x.
Proof. intros H. apply quad_ext; auto. Qed.
Lemma mat_eq_psd n A B : mat_eq n A B -> psd n A -> psd n B.
Proof. intros H HA x. rewrite <- (mat_eq_quad n A B x H). apply HA. Qed.

Lemma sym_shift n A k : symmetric n A -> symmetric n (fun i j => A i j + k * eye i j).
Proof. intros H i j Hi Hj. rewrite (H i j Hi Hj). unfold eye, delta. rewrite Nat.eqb_sym. reflexivity. Qed.

Lemma allclose_sym n A tol : 0 <= tol -> symmetric n A -> allclose_t n A tol = true.
Proof.
  intros Ht H. unfold allclose_t. apply forallb_forall. intros i Hi. apply forallb_forall. intros j Hj.
  apply in_seq in Hi. apply in_seq in Hj. apply Rleb_true. rewrite (H i j) by lia.
  replace (A j i - A j i) with 0 by ring. rewrite Rabs_R0. pose proof (Rabs_pos (A j i)). lra.
Qed.

Lemma dot_unit_pos n x : dot n x x = 1 -> (0 < n)%nat.
Proof. destruct n; [simpl; intros; unfold dot in H; simpl in H; lra|lia]. Qed.

(** ** ensure_psd_matrix *)
Lemma is_psd_iff eig n A tol : correct_eig eig -> (0 < n)%nat -> 0 <= tol -> symmetric n A ->
  (is_psd eig n A tol = true <-> psd_tol n A tol).
Proof.
  intros HE Hn Ht HS. unfold is_psd. rewrite allclose_sym by auto. destruct (HE n A Hn HS) as (l & -> & H1 & H2).
  simpl. rewrite Rleb_true. split.
  - intros H y. specialize (H1 y). pose proof (dot_self_nonneg n y). nra.
  - intros H. apply H2. exact H.
Qed.

Lemma ensure_psd_ok eig n A jitter : correct_eig eig -> (0 < n)%nat -> 0 < jitter ->
  exists P k, ensure_psd eig n A jitter = Ok P /\ 0 <= k /\
    (forall i j, P i j = symmetrise A i j + k * eye i j) /\
    symmetric n P /\ psd_tol n P jitter /\
    (psd_tol n (symmetrise A) jitter -> k = 0) /\
    (k <> 0 -> forall x, jitter * dot n x x <= quad n P x) /\
    (k <> 0 -> exists l, least_eigenvalue n (symmetrise A) l /\ l < - jitter /\ k = - l + jitter).
Proof.
  intros HE Hn Hj. unfold ensure_psd. set (M := symmetrise A). assert (HS : symmetric n M) by apply symmetrise_sym.
  destruct (is_psd eig n M jitter) eqn:E.
  - exists M, 0. split; [reflexivity|]. split; [lra|]. split; [intros; lra|]. split; [exact HS|].
    apply (is_psd_iff eig n M jitter HE Hn (Rlt_le _ _ Hj) HS) in E. split; [exact E|]. split; [auto|]. split; intros F; congruence.
  - destruct (HE n M Hn HS) as (l & El & H1 & H2). rewrite El.
    assert (Hneg : l < - jitter).
    { destruct (Rlt_le_dec l (- jitter)); [auto|]. exfalso. assert (psd_tol n M jitter).
      { intros y. specialize (H1 y). pose proof (dot_self_nonneg n y). nra. }
      apply (is_psd_iff eig n M jitter HE Hn (Rlt_le _ _ Hj) HS) in H. congruence. }
    rewrite Rmax_right by lra. set (k := - l + jitter). set (P := fun i j => M i j + k * eye i j).
    assert (HPs : symmetric n P) by (apply sym_shift; exact HS).
    assert (HPq : forall y, jitter * dot n y y <= quad n P y).
    { intros y. unfold P. rewrite quad_shift. specialize (H1 y). unfold k. pose proof (dot_self_nonneg n y). nra. }
    assert (HPp : psd_tol n P jitter).
    { intros y. specialize (HPq y). pose proof (dot_self_nonneg n y). nra. }
    rewrite (proj2 (is_psd_iff eig n P jitter HE Hn (Rlt_le _ _ Hj) HPs) HPp).
    exists P, k. split; [reflexivity|]. split; [unfold k; lra|]. split; [reflexivity|]. split; [exact HPs|]. split; [exact HPp|].
    split; [|split].
    + intros H. exfalso. apply (is_psd_iff eig n M jitter HE Hn (Rlt_le _ _ Hj) HS) in H. congruence.
    + intros _. exact HPq.
    + intros _. exists l. split; [split; [exact H1|exact H2]|]. split; [exact Hneg|reflexivity].
Qed.

(** On a symmetric positive semidefinite matrix it changes nothing. *)
Lemma ensure_psd_id eig n A : correct_eig eig -> (0 < n)%nat -> psd n A ->
  exists P, ensure_psd eig n A jit = Ok P /\ forall i j, P i j = symmetrise A i j.
Proof.
  intros HE Hn HA. destruct (ensure_psd_ok eig n A jit HE Hn) as (P & k & E & _ & HP & _ & _ & Hk & _); [unfold jit; lra|].
  exists P. split; [exact E|]. intros i j. rewrite HP, Hk; [ring|]. intros x. rewrite quad_symmetrise. specialize (HA x).
  pose proof (dot_self_nonneg n x). unfold jit. nra.
Qed.

(** ** Sample moments *)
Lemma port_mean T N X p w : expectation T p (port N X w) = dot N (wmean T p X) w.
Proof.
  unfold expectation, port, dot, wmean.
  rewrite (sumn_ext T _ (fun t => sumn N (fun i => X t i * p t * w i))).
  - rewrite sumn_swap. apply sumn_ext. intros i Hi. rewrite <- sumn_scale_r. reflexivity.
  - intros t Ht. rewrite <- sumn_scale. apply sumn_ext. intros; ring.
Qed.

Lemma quad_wcov_raw T N X p w :
  quad N (fun i j => sumn T (fun t => (X t i - wmean T p X i) * (X t j - wmean T p X j) * p t)) w =
  expectation T p (fun t => (port N X w t - dot N (wmean T p X) w) ^ 2).
Proof.
  unfold quad, expectation.
  rewrite (sumn_ext N _ (fun i => sumn T (fun t => p t * ((X t i - wmean T p X i) * w i * sumn N (fun j => (X t j - wmean T p X j) * w j))))).
  - rewrite sumn_swap. apply sumn_ext. intros t Ht. rewrite sumn_scale, sumn_scale_r.
    assert (E : sumn N (fun j => (X t j - wmean T p X j) * w j) = port N X w t - dot N (wmean T p X) w).
    { unfold port, dot. rewrite <- sumn_minus. apply sumn_ext. intros; ring. }
    rewrite E. ring.
  - intros i Hi. rewrite (sumn_ext N _ (fun j => sumn T (fun t => p t * ((X t i - wmean T p X i) * w i * ((X t j - wmean T p X j) * w j))))).
    + rewrite sumn_swap. apply sumn_ext. intros t Ht. rewrite sumn_scale, sumn_scale. reflexivity.
    + intros j Hj. rewrite <- sumn_scale_r, <- sumn_scale_r. apply sumn_ext. intros; ring.
Qed.

Lemma quad_wcov T N X p w : quad N (wcov T p X) w = variance T p (port N X w).
Proof. unfold wcov. rewrite quad_symmetrise, quad_wcov_raw. unfold variance. rewrite port_mean. reflexivity. Qed.

Lemma variance_nonneg T p f : (forall t, (t < T)%nat -> 0 <= p t) -> 0 <= variance T p f.
Proof.
  intros H. unfold variance, expectation. apply sumn_nonneg. intros t Ht. apply Rmult_le_pos; [auto|]. apply pow2_ge_0.
Qed.

Lemma quad_port_var N M W cov m : (m < M)%nat ->
  nth m (portfolio_variance N M W cov) 0 = quad N cov (fun i => W i m).
Proof.
  intros Hm. unfold portfolio_variance. rewrite nth_map_seq by exact Hm. unfold quad. rewrite sumn_swap.
  apply sumn_ext. intros j Hj. rewrite <- sumn_scale_r. apply sumn_ext. intros; ring.
Qed.

(** ** Inverse of a positive matrix *)
Lemma mv_mmul n A B x i : mv n A (mv n B x) i = mv n (mmul n A B) x i.
Proof.
  unfold mv, dot, mmul.
  rewrite (sumn_ext n _ (fun k => sumn n (fun j => A i k * B k j * x j))).
  - rewrite sumn_swap. apply sumn_ext. intros j Hj. rewrite sumn_scale_r. reflexivity.
  - intros k Hk. rewrite <- sumn_scale. apply sumn_ext. intros; ring.
Qed.
Lemma mv_delta n x i : (i < n)%nat -> mv n delta x i = x i.
Proof. intros Hi. unfold mv. apply dot_delta_l. exact Hi. Qed.
Lemma mv_inverse n A B x i : is_inverse n A B -> (i < n)%nat -> mv n A (mv n B x) i = x i.
Proof.
  intros H Hi. rewrite mv_mmul. rewrite <- (mv_delta n x i Hi). unfold mv. apply dot_ext; [|auto].
  intros j Hj. apply H; auto.
Qed.

Lemma quad_dot_mv n A x : quad n A x = dot n x (mv n A x).
Proof. apply quad_mv. Qed.

Lemma inverse_quad n A B x : is_inverse n A B -> quad n B x = quad n A (mv n B x).
Proof.
  intros H. rewrite (quad_mv n A). rewrite (dot_ext n (mv n B x) (mv n A (mv n B x)) (mv n B x) x); auto.
  - rewrite quad_mv, dot_comm. reflexivity.
  - intros i Hi. apply mv_inverse; auto.
Qed.

Lemma inverse_psd n A B : is_inverse n A B -> psd n A -> psd n B.
Proof. intros H HA x. rewrite (inverse_quad n A B x H). apply HA. Qed.

(** Positive definite [A]: positive forms on nonzero vectors. *)
Lemma dot_zero_inv n x : dot n x x = 0 -> forall i, (i < n)%nat -> x i = 0.
Proof.
  intros H i Hi. assert (E : x i * x i = 0) by (apply (sumn_nonneg_zero n (fun i => x i * x i)); auto; intros; nra). nra.
Qed.

Lemma inverse_pos n A B k x : is_inverse n A B -> 0 < k -> (forall y, k * dot n y y <= quad n A y) ->
  (exists i, (i < n)%nat /\ x i <> 0) -> 0 < quad n B x.
Proof.
  intros H Hk HA (i & Hi & Hx). rewrite (inverse_quad n A B x H). specialize (HA (mv n B x)).
  destruct (Rle_lt_or_eq_dec 0 _ (dot_self_nonneg n (mv n B x))) as [Hp|Hz]; [nra|].
  exfalso. apply Hx. rewrite <- (mv_inverse n A B x i H Hi). unfold mv at 1.
  apply sumn_0. intros j Hj. rewrite (dot_zero_inv n (mv n B x) (eq_sym Hz) j Hj). ring.
Qed.

Lemma mv_linear_minus n A x g i : mv n A (fun k => x k - g * ones k) i = mv n A x i - g * mv n A ones i.
Proof. unfold mv. rewrite dot_minus_r, dot_scale_r. reflexivity. Qed.

Lemma clip01_range x : 0 <= clip01 x <= 1.
Proof. unfold clip01. unfold Rmin, Rmax. repeat destruct Rle_dec; lra. Qed.
Lemma clip01_id x : 0 <= x <= 1 -> clip01 x = x.
Proof. unfold clip01, Rmin, Rmax. intros. repeat destruct Rle_dec; lra. Qed.

(** ** Jorion *)
Lemma jorion_ok inv N mu sr sc S T out :
  shrink_mean_jorion inv N mu sr sc S T = Ok out ->
  (0 < T)%Z /\ (3 <= N)%nat /\
  exists Si, inv N (fun i j => symmetrise S i j + jit * eye i j) = Some Si /\
    let g := dot N ones (mv N Si mu) / dot N ones (mv N Si ones) in
    let v := clip01 (jorion_v N (Z.to_nat T) (quad N Si (fun i => mu i - g))) in
    out = (fun i => mu i - v * (mu i - g)).
Proof.
  unfold shrink_mean_jorion. destruct (T <=? 0)%Z eqn:E1; [discriminate|]. destruct (Nat.leb N 2) eqn:E2; [discriminate|].
  destruct (negb _); [discriminate|]. simpl orb. cbv iota. destruct (inv N _) as [Si|]; [|discriminate].
  intros H. injection H as <-. apply Z.leb_gt in E1. apply Nat.leb_gt in E2. split; [lia|]. split; [lia|]. exists Si. split; reflexivity.
Qed.

(** ** Shared: convex combinations of matrices *)
Lemma psd_convex n A B s : 0 <= s <= 1 -> psd n A -> psd n B -> psd n (fun i j => s * A i j + (1 - s) * B i j).
Proof. intros Hs HA HB. apply (psd_plus n (fun i j => s * A i j) (fun i j => (1 - s) * B i j)); apply psd_scale; auto; lra. Qed.

Lemma psd_eye n k : 0 <= k -> psd n (fun i j => k * eye i j).
Proof. intros H. apply psd_scale; [exact H|]. intros x. rewrite quad_eye. apply dot_self_nonneg. Qed.

Lemma psd_diag n A i : psd n A -> (i < n)%nat -> 0 <= A i i.
Proof.
  intros H Hi. specialize (H (fun k => delta k i)). unfold quad in H.
  rewrite (sumn_ext n _ (fun a => delta a i * A a i)) in H.
  - rewrite sumn_delta in H by exact Hi. exact H.
  - intros a Ha. rewrite (sumn_ext n _ (fun b => delta b i * (A a b * delta a i))) by (intros; ring).
    rewrite sumn_delta by exact Hi. ring.
Qed.
Lemma psd_trace n A : psd n A -> 0 <= trace n A.
Proof. intros H. apply sumn_nonneg. intros i Hi. apply (psd_diag n A i); auto. Qed.

Lemma emp_cov_psd T N X : psd N (emp_cov T X).
Proof.
  intros x. unfold emp_cov. rewrite (quad_ext N _ (fun i j => / INR T * sumn T (fun t => X t i * X t j)) x x).
  - rewrite quad_scale. pose proof (gram_psd N T (fun i t => X t i) x) as H. cbv beta in H.
    destruct T as [|T].
    { assert (E0 : quad N (fun i j => sumn 0 (fun t => X t i * X t j)) x = 0).
      { unfold quad. apply sumn_0. intros i Hi. apply sumn_0. intros j Hj. simpl. ring. }
      rewrite E0. lra. }
    apply Rmult_le_pos; [apply Rlt_le, Rinv_0_lt_compat, lt_0_INR; lia|exact H].
  - intros i j Hi Hj. unfold Rdiv. ring.
  - auto.
Qed.
Lemma emp_cov_sym T X i j : emp_cov T X i j = emp_cov T X j i.
Proof. unfold emp_cov. f_equal. apply sumn_ext. intros; ring. Qed.

(** ** OAS *)
Lemma frob2_nonneg n A : 0 <= frob2 n A.
Proof. apply sumn_nonneg. intros. apply sumn_nonneg. intros. nra. Qed.

Lemma oas_range T N E : (2 <= N)%nat -> (1 <= T)%nat -> 0 <= oas_shrinkage T N E <= 1.
Proof.
  intros HN HT. unfold oas_shrinkage. set (alpha := frob2 N E / (INR N * INR N)). set (mu := trace N E / INR N).
  destruct (Rleb_spec ((INR T + 1 - 2 / INR N) * (alpha - mu * mu / INR N)) 0) as [H|H]; [lra|].
  assert (HNr : 2 <= INR N) by (apply (le_INR 2); exact HN).
  assert (Ha : 0 <= alpha) by (apply Rmult_le_pos; [apply frob2_nonneg|apply Rlt_le, Rinv_0_lt_compat; nra]).
  assert (H2 : 0 <= 1 - 2 / INR N).
  { assert (2 / INR N <= 1); [|lra]. apply Rmult_le_reg_r with (INR N); [lra|]. unfold Rdiv. rewrite Rmult_assoc, Rinv_l by lra. lra. }
  split.
  - apply Rmin_glb; [|lra]. apply Rmult_le_pos; [nra|]. apply Rlt_le, Rinv_0_lt_compat. lra.
  - apply Rmin_r.
Qed.

Lemma trace_plus n A B : trace n (fun i j => A i j + B i j) = trace n A + trace n B.
Proof. unfold trace. rewrite <- sumn_plus. reflexivity. Qed.
Lemma trace_scale n k A : trace n (fun i j => k * A i j) = k * trace n A.
Proof. unfold trace. rewrite <- sumn_scale. reflexivity. Qed.
Lemma trace_eye n : trace n eye = INR n.
Proof. unfold trace, eye. rewrite (sumn_ext n _ (fun _ => 1)); [rewrite sumn_const; lra|]. intros i _. unfold delta. rewrite Nat.eqb_refl. reflexivity. Qed.
Lemma trace_ext n A B : mat_eq n A B -> trace n A = trace n B.
Proof. intros H. apply sumn_ext. intros i Hi. apply H; auto. Qed.
Lemma trace_symmetrise n A : trace n (symmetrise A) = trace n A.
Proof. unfold trace, symmetrise. apply sumn_ext. intros; lra. Qed.

Lemma oas_ok eig T N X c out : correct_eig eig -> shrink_covariance_oas eig T N X c = Ok out ->
  let E := emp_cov T (if c then X else center T X) in
  exists s, 0 <= s <= 1 /\
    mat_eq N out (fun i j => (1 - s) * E i j + s * (trace N E / INR N * eye i j)) /\
    (N <> 1%nat -> s = oas_shrinkage T N E).
Proof.
  intros HE. unfold shrink_covariance_oas. destruct (Nat.eqb_spec T 0) as [|HT]; [discriminate|].
  destruct (Nat.eqb_spec N 0) as [|HN]; [discriminate|]. simpl orb. cbv iota zeta.
  set (E := emp_cov T (if c then X else center T X)).
  destruct (Nat.eqb_spec N 1) as [->|HN1].
  - intros H. injection H as <-. exists 0. split; [lra|]. split; [|congruence]. intros i j _ _. lra.
  - set (s := oas_shrinkage T N E). assert (Hs : 0 <= s <= 1) by (apply oas_range; lia).
    intros H. assert (Hp : psd N (fun i j => (1 - s) * E i j + eye i j * (s * (trace N E / INR N)))).
    { apply (mat_eq_psd N (fun i j => (1 - s) * E i j + s * (trace N E / INR N) * eye i j)); [intros i j _ _; ring|].
      apply (psd_plus N (fun i j => (1 - s) * E i j) (fun i j => s * (trace N E / INR N) * eye i j)).
      - apply psd_scale; [lra|apply emp_cov_psd].
      - apply psd_eye. apply Rmult_le_pos; [lra|]. apply Rmult_le_pos; [apply psd_trace, emp_cov_psd|].
        apply Rlt_le, Rinv_0_lt_compat, lt_0_INR. lia. }
    destruct (ensure_psd_id eig N _ HE ltac:(lia) Hp) as (P & EP & HP). rewrite EP in H. injection H as <-.
    exists s. split; [exact Hs|]. split; [|reflexivity]. intros i j Hi Hj. rewrite HP. unfold symmetrise.
    assert (HEs : E j i = E i j) by (unfold E; apply emp_cov_sym). rewrite HEs. unfold eye, delta. rewrite (Nat.eqb_sym j i). lra.
Qed.

(** ** Ledoit-Wolf *)
Lemma clip_ratio_range a b d : clip_ratio a b = Some d -> 0 <= d <= 1.
Proof.
  unfold clip_ratio. destruct (Reqb b 0); [destruct (Reqb a 0); [discriminate|]; destruct (Rltb 0 a)|]; intros H; injection H as <-; try lra.
  apply clip01_range.
Qed.

Lemma lw_delta_range T N X S tg d : lw_delta T N X S tg = Some d -> 0 <= d <= 1.
Proof.
  unfold lw_delta. destruct tg; [apply clip_ratio_range| |];
    (destruct (_ || _)%bool; [discriminate|]; destruct (Reqb _ 0); [apply clip_ratio_range|]; intros H; injection H as <-; apply clip01_range).
Qed.

(** Cauchy-Schwarz for a positive semidefinite matrix. *)
Lemma psd_cs n A i j : psd n A -> symmetric n A -> (i < n)%nat -> (j < n)%nat -> A i j * A i j <= A i i * A j j.
Proof.
  intros H HS Hi Hj. destruct (Nat.eq_dec i j) as [->|Hij]; [lra|].
  assert (Q : forall a b, 0 <= a * a * A i i + 2 * a * b * A i j + b * b * A j j).
  { intros a b. specialize (H (fun k => a * delta k i + b * delta k j)). unfold quad in H.
    assert (E : forall k, (k < n)%nat -> sumn n (fun l => A k l * (a * delta k i + b * delta k j) * (a * delta l i + b * delta l j)) =
               a * (delta k i * (a * A k i + b * A k j)) + b * (delta k j * (a * A k i + b * A k j))).
    { intros k Hk. rewrite (sumn_ext n _ (fun l => delta l i * (A k l * (a * delta k i + b * delta k j) * a) + delta l j * (A k l * (a * delta k i + b * delta k j) * b))) by (intros; ring).
      rewrite sumn_plus, !sumn_delta by auto. ring. }
    rewrite (sumn_ext n _ _ E) in H. rewrite sumn_plus, !sumn_scale, !sumn_delta in H by auto.
    rewrite (HS j i Hj Hi) in H. nra. }
  pose proof (psd_diag n A i H Hi) as Di. pose proof (psd_diag n A j H Hj) as Dj.
  destruct (Rle_lt_or_eq_dec 0 _ Di) as [Hp|Hz].
  - specialize (Q (- A i j) (A i i)). nra.
  - rewrite <- Hz in *. specialize (Q (- (A j j + 1)) (A i j)). nra.
Qed.

Lemma sum_sq_le n y : (sumn n y) ^ 2 <= INR n * sumn n (fun i => y i * y i).
Proof.
  assert (H : 0 <= sumn n (fun i => sumn n (fun j => (y i - y j) ^ 2))) by (apply sumn_nonneg; intros; apply sumn_nonneg; intros; apply pow2_ge_0).
  assert (E : sumn n (fun i => sumn n (fun j => (y i - y j) ^ 2)) = 2 * (INR n * sumn n (fun i => y i * y i)) - 2 * (sumn n y) ^ 2).
  { rewrite (sumn_ext n _ (fun i => INR n * (y i * y i) - 2 * (y i * sumn n y) + sumn n (fun j => y j * y j))).
    - rewrite sumn_plus, sumn_minus, sumn_scale, sumn_scale, sumn_scale_r, sumn_const. ring.
    - intros i Hi. rewrite (sumn_ext n _ (fun j => y i * y i - 2 * y i * y j + y j * y j)) by (intros; ring).
      rewrite sumn_plus, sumn_minus, sumn_const, sumn_scale. ring. }
  lra.
Qed.

Lemma quad_const_corr n s r x :
  quad n (fun i j => if Nat.eqb i j then s i * s i else r * (s i * s j)) x =
  r * (sumn n (fun i => s i * x i)) ^ 2 + (1 - r) * sumn n (fun i => (s i * x i) * (s i * x i)).
Proof.
  rewrite (quad_ext n _ (fun i j => r * (s i * s j) + (1 - r) * (delta i j * (s i * s j))) x x); auto.
  - rewrite (quad_plus n (fun i j => r * (s i * s j))), !quad_scale. f_equal.
    + f_equal. unfold quad. rewrite (sumn_ext n _ (fun i => (s i * x i) * sumn n (fun j => s j * x j))).
      * rewrite sumn_scale_r. ring.
      * intros i Hi. rewrite <- sumn_scale. apply sumn_ext. intros; ring.
    + f_equal. unfold quad. apply sumn_ext. intros i Hi.
      rewrite (sumn_ext n _ (fun j => delta i j * (s i * s j * x i * x j))) by (intros; ring). rewrite sumn_delta_r by auto. ring.
  - intros i j _ _. unfold delta. destruct (Nat.eqb_spec i j) as [->|]; ring.
Qed.

Lemma sqrt_sq_id a : 0 <= a -> sqrt a * sqrt a = a.
Proof. apply sqrt_sqrt. Qed.

(** The constant-correlation target of a positive semidefinite covariance with positive variances is
    positive semidefinite. *)
Lemma lw_F_psd n S tg : (2 <= n)%nat \/ tg = LwIdentity -> (1 <= n)%nat -> psd n S -> symmetric n S ->
  (tg <> LwIdentity -> forall i, (i < n)%nat -> 0 < S i i) -> psd n (lw_F n S tg).
Proof.
  intros Hn2 Hn HS Hsym Hd. assert (HNp : 0 < INR n) by (apply lt_0_INR; lia).
  assert (HI : psd n (lw_F n S LwIdentity)).
  { simpl. apply (mat_eq_psd n (fun i j => (trace n S / INR n) * eye i j)); [intros i j _ _; field; lra|].
    apply psd_eye. apply Rmult_le_pos; [apply psd_trace; auto|apply Rlt_le, Rinv_0_lt_compat; auto]. }
  assert (Hcc : tg <> LwIdentity -> psd n (lw_F n S LwConstCorr)).
  { intros Htg. destruct Hn2 as [Hn2|]; [|congruence]. specialize (Hd Htg). cbn [lw_F].
    set (s := fun i => sqrt (S i i)). set (r := (total n (fun i j => S i j / (s i * s j)) - INR n) / (INR n * (INR n - 1))).
    assert (HN2 : 2 <= INR n) by (apply (le_INR 2); exact Hn2).
    assert (Hs : forall i, (i < n)%nat -> 0 < s i) by (intros i Hi; apply sqrt_lt_R0; auto).
    assert (Hss : forall i, (i < n)%nat -> s i * s i = S i i) by (intros i Hi; apply sqrt_sqrt; apply Rlt_le; auto).
    assert (Hden : 0 < INR n * (INR n - 1)) by nra.
    assert (Htot : total n (fun i j => S i j / (s i * s j)) = quad n S (fun i => / s i)).
    { unfold total, quad. apply sumn_ext. intros i Hi. apply sumn_ext. intros j Hj. field. split; apply Rgt_not_eq; apply Hs; auto. }
    assert (Hr1 : 0 <= 1 + (INR n - 1) * r).
    { assert (E : 1 + (INR n - 1) * r = total n (fun i j => S i j / (s i * s j)) / INR n) by (unfold r; field; lra).
      rewrite E. apply Rmult_le_pos; [rewrite Htot; apply HS|apply Rlt_le, Rinv_0_lt_compat; lra]. }
    assert (Hr2 : r <= 1).
    { assert (Hle : total n (fun i j => S i j / (s i * s j)) <= INR n * INR n).
      { unfold total. rewrite <- (sumn_const n (INR n)). apply sumn_le. intros i Hi.
        replace (INR n) with (sumn n (fun _ => 1)) by (rewrite sumn_const; ring). apply sumn_le. intros j Hj.
        apply Rmult_le_reg_r with (s i * s j); [apply Rmult_lt_0_compat; auto|].
        unfold Rdiv. rewrite Rmult_assoc, Rinv_l by (apply Rgt_not_eq, Rmult_lt_0_compat; auto).
        pose proof (psd_cs n S i j HS Hsym Hi Hj) as CS. rewrite <- (Hss i Hi), <- (Hss j Hj) in CS.
        assert (0 < s i * s j) by (apply Rmult_lt_0_compat; auto). nra. }
      apply Rmult_le_reg_r with (INR n * (INR n - 1)); [exact Hden|]. unfold r, Rdiv. rewrite Rmult_assoc, Rinv_l by lra. nra. }
    apply (mat_eq_psd n (fun i j => if Nat.eqb i j then s i * s i else r * (s i * s j))).
    { intros i j Hi Hj. destruct (Nat.eqb_spec i j); [subst; apply Hss; auto|reflexivity]. }
    intros x. rewrite quad_const_corr. set (y := fun i => s i * x i). pose proof (sum_sq_le n y) as Hc. fold y.
    assert (0 <= sumn n (fun i => y i * y i)) by (apply sumn_nonneg; intros; nra).
    change (sumn n (fun i => s i * x i)) with (sumn n y). change (sumn n (fun i => s i * x i * (s i * x i))) with (sumn n (fun i => y i * y i)).
    pose proof (pow2_ge_0 (sumn n y)). destruct (Rle_dec 0 r); [nra|].
    assert (r * (INR n * sumn n (fun i => y i * y i)) <= r * (sumn n y) ^ 2) by nra. nra. }
  destruct tg; [exact HI|apply Hcc; discriminate|apply Hcc; discriminate].
Qed.

Lemma lw_F_sym n S tg : symmetric n S -> symmetric n (lw_F n S tg).
Proof.
  intros HS. assert (A : symmetric n (lw_F n S LwConstCorr)).
  { intros i j Hi Hj. simpl. rewrite (Nat.eqb_sym j i). destruct (Nat.eqb_spec i j); [subst; reflexivity|]. ring. }
  destruct tg; [|exact A|exact A]. intros i j _ _. simpl. unfold eye, delta. rewrite (Nat.eqb_sym j i). reflexivity.
Qed.

Lemma lw_ok eig T N R_ sr sc Shat tg out : correct_eig eig -> psd N Shat -> (1 <= N)%nat ->
  shrink_covariance_ledoit_wolf eig T N R_ sr sc Shat tg = Ok out ->
  tg <> LwOther /\ exists d, 0 <= d <= 1 /\ lw_delta T N (center T R_) (symmetrise Shat) tg = Some d /\
    mat_eq N out (fun i j => d * lw_F N (symmetrise Shat) tg i j + (1 - d) * symmetrise Shat i j) /\
    psd N out.
Proof.
  intros HE HS HN. unfold shrink_covariance_ledoit_wolf. destruct (Nat.eqb T 0 || _)%bool; [discriminate|].
  set (S := symmetrise Shat). assert (HSp : psd N S) by (intros x; unfold S; rewrite quad_symmetrise; apply HS).
  assert (HSs : symmetric N S) by apply symmetrise_sym. intros H.
  assert (Ht : tg <> LwOther) by (intros ->; discriminate).
  assert (H' : match lw_delta T N (center T R_) S tg with
               | None => Err ValueError
               | Some d => let* P := ensure_psd eig N (fun i j => d * lw_F N S tg i j + (1 - d) * S i j) jit in Ok (symmetrise P)
               end = Ok out) by (destruct tg; [exact H|exact H|congruence]). clear H.
  split; [exact Ht|]. destruct (lw_delta T N (center T R_) S tg) as [d|] eqn:Ed; [|discriminate].
  pose proof (lw_delta_range _ _ _ _ _ _ Ed) as Hd.
  assert (HF : psd N (lw_F N S tg)).
  { apply lw_F_psd; auto.
    - destruct tg; [right; reflexivity| |congruence]. left. unfold lw_delta in Ed. destruct (Nat.leb_spec N 1); [discriminate|lia].
    - intros Hi i Hlt. unfold lw_delta in Ed. destruct tg; [congruence| |congruence].
      destruct (existsb (fun i => Rleb (S i i) 0) (seq 0 N)) eqn:Ex; [rewrite orb_true_r in Ed; discriminate|].
      destruct (Rlt_le_dec 0 (S i i)); [auto|]. exfalso. apply not_true_iff_false in Ex. apply Ex. apply existsb_exists.
      exists i. split; [apply in_seq; lia|]. apply Rleb_true. auto. }
  assert (HP : psd N (fun i j => d * lw_F N S tg i j + (1 - d) * S i j)) by (apply psd_convex; auto).
  destruct (ensure_psd_id eig N _ HE ltac:(lia) HP) as (P & EP & HPe). rewrite EP in H'. injection H' as <-.
  assert (HM : mat_eq N (symmetrise P) (fun i j => d * lw_F N S tg i j + (1 - d) * S i j)).
  { intros i j Hi Hj. unfold symmetrise at 1. rewrite !HPe. unfold symmetrise.
    rewrite (lw_F_sym N S tg HSs j i Hj Hi), (HSs j i Hj Hi). lra. }
  exists d. split; [exact Hd|]. split; [reflexivity|]. split; [exact HM|].
  intros x. rewrite (mat_eq_quad N _ _ x HM). apply HP.
Qed.

(** ** EWMA *)
Lemma ewma_weighted lam X t i j :
  ewma_rec lam X t i j = sumn (S t) (fun u => ewma_weight lam (S t) u * (X u i * X u j)).
Proof.
  induction t as [|t IH]; [simpl; ring|].
  cbn [ewma_rec]. rewrite IH. cbn [sumn].
  assert (E : forall u, ewma_weight lam (S (S t)) u = (if Nat.eqb u (S t) then 1 - lam else lam * ewma_weight lam (S t) u) \/ (S t < u)%nat).
  { intros u. destruct (Nat.eqb_spec u (S t)) as [->|Hu].
    - left. simpl. rewrite Nat.sub_diag. ring.
    - destruct (le_lt_dec u t) as [Hl|Hl]; [left|right; lia]. destruct u; simpl; [rewrite Nat.sub_0_r; reflexivity|].
      replace (t - u)%nat with (S (t - S u)) by lia. replace (t - 0 - S u)%nat with (t - S u)%nat by lia. simpl. ring. }
  assert (E2 : forall u, (u < S t)%nat -> ewma_weight lam (S (S t)) u = lam * ewma_weight lam (S t) u).
  { intros u Hu. destruct (E u) as [Eu|]; [|lia]. destruct (Nat.eqb_spec u (S t)); [lia|exact Eu]. }
  rewrite (sumn_ext t (fun u => ewma_weight lam (S (S t)) u * (X u i * X u j)) (fun u => lam * (ewma_weight lam (S t) u * (X u i * X u j)))) by (intros u Hu; rewrite (E2 u) by lia; ring).
  rewrite sumn_scale. rewrite (E2 t) by lia.
  destruct (E (S t)) as [Eu|]; [|lia]. rewrite Nat.eqb_refl in Eu. rewrite Eu. ring.
Qed.

Lemma ewma_ones lam t : ewma_rec lam (fun _ _ => 1) t 0%nat 0%nat = 1.
Proof. induction t as [|t IH]; [simpl; ring|]. cbn [ewma_rec]. rewrite IH. ring. Qed.
Lemma ewma_weights_sum lam t : sumn (S t) (ewma_weight lam (S t)) = 1.
Proof.
  pose proof (ewma_weighted lam (fun _ _ => 1) t 0 0) as H. rewrite ewma_ones in H. rewrite H.
  apply sumn_ext. intros; ring.
Qed.

Lemma ewma_weight_nonneg lam T t : 0 <= lam <= 1 -> 0 <= ewma_weight lam T t.
Proof. intros H. destruct t; simpl; [apply pow_le; lra|]. apply Rmult_le_pos; [lra|apply pow_le; lra]. Qed.

Lemma ewma_quad lam X t N x :
  quad N (symmetrise (ewma_rec lam X t)) x = sumn (S t) (fun u => ewma_weight lam (S t) u * (dot N (X u) x) ^ 2).
Proof.
  rewrite quad_symmetrise. unfold quad.
  rewrite (sumn_ext N _ (fun i => sumn (S t) (fun u => ewma_weight lam (S t) u * (X u i * x i * dot N (X u) x)))).
  - rewrite sumn_swap. apply sumn_ext. intros u Hu. rewrite sumn_scale, sumn_scale_r. fold (dot N (X u) x). ring.
  - intros i Hi. rewrite (sumn_ext N _ (fun j => sumn (S t) (fun u => ewma_weight lam (S t) u * (X u i * x i * (X u j * x j))))).
    + rewrite sumn_swap. apply sumn_ext. intros u Hu. rewrite sumn_scale, sumn_scale. reflexivity.
    + intros j Hj. rewrite ewma_weighted, <- sumn_scale_r, <- sumn_scale_r. apply sumn_ext. intros; ring.
Qed.

(** ** James-Stein *)
Lemma james_stein_ok eig pinv N mu sr sc S T target out :
  shrink_mean_james_stein eig pinv N mu sr sc S T target = Ok out -> (2 <= N)%nat ->
  (0 < T)%Z /\ exists tg, (match target with None => tg = (fun _ => sumn N mu / INR N) | Some (k, tv) => k = N /\ tg = tv end) /\
    on_segment N tg mu out.
Proof.
  unfold shrink_mean_james_stein. destruct (negb (Nat.eqb sr sc)); [discriminate|]. destruct (negb (Nat.eqb sr N)); [discriminate|].
  destruct (Z.leb_spec T 0); [discriminate|]. intros H0 HN. apply bind_ok in H0 as (tg & E1 & H0). apply bind_ok in H0 as (P & E2 & H0).
  injection H0 as <-. split; [lia|]. exists tg. split.
  { destruct target as [[k tv]|]; [|injection E1 as <-; reflexivity]. destruct (Nat.eqb_spec k N); [|discriminate]. injection E1 as <-. auto. }
  match goal with |- context [if Rleb ?q 0 then 0 else Rmax 0 (1 - (INR N - 2) / ?q)] => set (qq := q) end.
  exists (if Rleb qq 0 then 0 else Rmax 0 (1 - (INR N - 2) / qq)). split.
  - destruct (Rleb_spec qq 0); [lra|]. split; [apply Rmax_l|]. apply Rmax_lub; [lra|].
    assert (2 <= INR N) by (apply (le_INR 2); exact HN). assert (0 <= (INR N - 2) / qq); [|lra].
    apply Rmult_le_pos; [lra|apply Rlt_le, Rinv_0_lt_compat; lra].
  - intros i Hi. ring.
Qed.

(** ** A correct eigenvalue oracle exists *)
Lemma quad_lower n A x : - sumn n (fun i => sumn n (fun j => Rabs (A i j))) * dot n x x <= quad n A x.
Proof.
  assert (Hx : forall i, (i < n)%nat -> x i * x i <= dot n x x).
  { intros i Hi. unfold dot. clear -Hi. revert i Hi. induction n as [|n IH]; intros i Hi; [lia|]. cbn [sumn].
    assert (0 <= sumn n (fun k => x k * x k)) by (apply sumn_nonneg; intros; nra).
    destruct (Nat.eq_dec i n) as [->|Hne]; [nra|]. specialize (IH i ltac:(lia)). nra. }
  rewrite Ropp_mult_distr_l_reverse, <- sumn_scale_r, <- sumn_opp. unfold quad. apply sumn_le. intros i Hi.
  rewrite <- sumn_scale_r, <- sumn_opp. apply sumn_le. intros j Hj.
  assert (Hab : Rabs (x i * x j) <= dot n x x).
  { specialize (Hx i Hi) as H1. specialize (Hx j Hj) as H2. unfold Rabs. destruct (Rcase_abs _); nra. }
  assert (H : Rabs (A i j * x i * x j) <= Rabs (A i j) * dot n x x).
  { rewrite Rmult_assoc, Rabs_mult. apply Rmult_le_compat_l; [apply Rabs_pos|exact Hab]. }
  unfold Rabs at 1 in H. destruct (Rcase_abs (A i j * x i * x j)); [lra|].
  assert (0 <= Rabs (A i j) * dot n x x) by (apply Rmult_le_pos; [apply Rabs_pos|apply dot_self_nonneg]). lra.
Qed.
Lemma quad_upper0 n A : exists x, dot n x x = 1 /\ quad n A x = A 0%nat 0%nat \/ n = 0%nat.
Proof.
  exists (fun k => delta k 0). destruct n as [|n]; [right; reflexivity|left]. split.
  - rewrite dot_delta by lia. reflexivity.
  - unfold quad. rewrite (sumn_ext (S n) _ (fun a => delta a 0 * A a 0%nat)).
    + apply (sumn_delta (S n) 0 (fun a => A a 0%nat)). lia.
    + intros a Ha. rewrite (sumn_ext (S n) _ (fun b => delta b 0 * (A a b * delta a 0))) by (intros; ring). rewrite sumn_delta by lia. ring.
Qed.
Definition below (n : nat) (A : mat) (m : R) : Prop := forall x, m * dot n x x <= quad n A x.
Lemma below_bound n A : (0 < n)%nat -> bound (below n A).
Proof.
  intros Hn. destruct (quad_upper0 n A) as (x & [(H1 & H2)|]); [|lia]. exists (A 0%nat 0%nat). intros m Hm. specialize (Hm x).
  rewrite H1, H2 in Hm. lra.
Qed.
Lemma below_ex n A : exists m, below n A m.
Proof. eexists. intros x. apply quad_lower. Qed.
Definition rayleigh : eig_oracle := fun n A =>
  match lt_dec 0 n with
  | left Hn => Some (proj1_sig (completeness (below n A) (below_bound n A Hn) (below_ex n A)))
  | right _ => None
  end.
Lemma rayleigh_correct : correct_eig rayleigh.
Proof.
  intros n A Hn _. unfold rayleigh. destruct (lt_dec 0 n) as [H|]; [|lia].
  destruct (completeness (below n A) (below_bound n A H) (below_ex n A)) as (l & Hub & Hlub). cbn [proj1_sig].
  exists l. split; [reflexivity|]. split.
  - intros x. destruct (Rle_lt_dec (l * dot n x x) (quad n A x)) as [|Hlt]; [auto|]. exfalso.
    pose proof (dot_self_nonneg n x) as H0. destruct (Rle_lt_or_eq_dec 0 _ H0) as [Hp|Hz].
    + assert (Hq : l <= quad n A x / dot n x x).
      { apply Hlub. intros m Hm. specialize (Hm x). apply Rmult_le_reg_r with (dot n x x); [exact Hp|].
        unfold Rdiv. rewrite Rmult_assoc, Rinv_l by lra. lra. }
      apply (Rmult_le_compat_r (dot n x x)) in Hq; [|lra]. unfold Rdiv in Hq. rewrite Rmult_assoc, Rinv_l in Hq by lra. lra.
    + pose proof (quad_lower n A x). rewrite <- Hz in *. lra.
  - intros m Hm. apply Hub. exact Hm.
Qed.
