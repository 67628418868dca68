(** Further theorems about moment estimation: Huber equivariance (C36), ensure_psd_matrix (C52), scale
    equivariance (C53), POET and Tyler (C54), probabilities in estimate_moments (C55). *)
From Coq Require Import FunctionalExtensionality.
From Verif Require Import RBase QpBase SortLib MomModel MomSpec MomProofs MomProofs2 MomProofs3.
Open Scope R_scope.
Open Scope list_scope.

(** * C36: Huber under shifts *)
Lemma map_shift_affine c l : map (fun v => v + c) l = map (fun v => 1 * v + c) l.
Proof. apply map_ext. intros; ring. Qed.
Lemma huber_tau_shift x c : x <> [] -> huber_tau (map (fun v => v + c) x) = huber_tau x.
Proof.
  intros Hne. unfold huber_tau. rewrite map_length.
  assert (Em : median (map (fun v => v + c) x) = median x + c) by (rewrite map_shift_affine, median_affine by (auto; lra); ring).
  rewrite Em, map_map. do 4 f_equal. apply map_ext. intros a. f_equal. ring.
Qed.
Lemma huber_step_shift x tau mu c : x <> [] -> 0 < tau -> huber_step (map (fun v => v + c) x) tau (mu + c) = huber_step x tau mu + c.
Proof.
  intros Hne Ht. unfold huber_step. rewrite map_map.
  set (w := fun xi => Rmin 1 (tau / Rmax (Rabs (xi - mu)) (1 / 1000000000000))).
  assert (E : map (fun y => Rmin 1 (tau / Rmax (Rabs (y + c - (mu + c))) (1 / 1000000000000))) x = map w x).
  { apply map_ext. intros a. unfold w. do 4 f_equal. ring. }
  rewrite E. assert (Hw : 0 < rsum (map w x)).
  { apply rsum_pos; [destruct x; simpl; congruence|]. intros y Hy. apply in_map_iff in Hy as (a & <- & _). unfold w.
    apply Rmin_glb_lt; [lra|]. apply Rmult_lt_0_compat; [exact Ht|]. apply Rinv_0_lt_compat.
    apply Rlt_le_trans with (1 / 1000000000000); [lra|apply Rmax_r]. }
  assert (E2 : rsum (map2 Rmult (map w x) (map (fun v => v + c) x)) = rsum (map2 Rmult (map w x) x) + c * rsum (map w x)).
  { clear. induction x as [|a x IH]; [simpl; ring|]. cbn [map map2]. rewrite !rsum_cons, IH. ring. }
  rewrite E2. field. lra.
Qed.

(** One reweighting step is shift-equivariant, and so is the whole estimate when the tolerance is zero. *)
Theorem huber_shift_equivariant_at_zero_tolerance :
  forall x c n, x <> [] -> huber (map (fun v => v + c) x) 0 n = huber x 0 n + c.
Proof.
  intros x c n Hne. unfold huber. rewrite huber_tau_shift by exact Hne.
  assert (Em : median (map (fun v => v + c) x) = median x + c) by (rewrite map_shift_affine, median_affine by (auto; lra); ring).
  rewrite Em. pose proof (huber_tau_pos x Hne) as Ht. generalize (huber_tau x) (median x) Ht. clear Em Ht.
  induction n as [|n IH]; intros tau mu Ht; [reflexivity|]. cbn [huber_iter]. rewrite huber_step_shift by auto.
  replace (huber_step x tau mu + c - (mu + c)) with (huber_step x tau mu - mu) by ring. rewrite !Rmult_0_l.
  destruct (Rleb _ 0); [reflexivity|]. apply IH. exact Ht.
Qed.
Print Assumptions huber_shift_equivariant_at_zero_tolerance.

(** Finding: the stopping rule is relative to the level of the data, so in general adding a constant to
    every return does not add it to the estimate. *)
Lemma huber_case_tau : 148/100 < huber_tau [0; 1; 10] < 186/100.
Proof.
  assert (M : median [0; 1; 10] = 1).
  { unfold median. simpl. unfold rsort, take, argsort_by. simpl.
    repeat match goal with |- context [Rleb ?a ?b] => destruct (Rleb_spec a b); [try lra|try lra]; simpl end. reflexivity. }
  assert (M2 : median (map (fun xi => Rabs (xi - 1)) [0; 1; 10]) = 1).
  { cbn [map]. replace (0 - 1) with (-1) by ring. replace (1 - 1) with 0 by ring. replace (10 - 1) with 9 by ring.
    rewrite Rabs_R0, (Rabs_left (-1)), (Rabs_right 9) by lra.
    unfold median. simpl. unfold rsort, take, argsort_by. simpl.
    repeat match goal with |- context [Rleb ?a ?b] => destruct (Rleb_spec a b); [try lra|try lra]; simpl end. lra. }
  unfold huber_tau. rewrite M, M2. cbn [List.length Nat.max].
  assert (L : ln (INR 3) <= 2) by (pose proof (ln_le_sub1 (INR 3) ltac:(simpl; lra)) as H; simpl in *; lra).
  rewrite Rmax_right by exact L.
  assert (S1 : 1 < sqrt (INR 3 / 2)) by (rewrite <- sqrt_1 at 1; apply sqrt_lt_1; simpl; lra).
  assert (S2 : sqrt (INR 3 / 2) < 125/100).
  { rewrite <- (sqrt_square (125/100)) by lra. apply sqrt_lt_1; simpl; lra. }
  split; nra.
Qed.
Theorem huber_shift_equivariant_refuted :
  ~ (forall x c tol n, x <> [] -> huber (map (fun v => v + c) x) tol n = huber x tol n + c).
Proof.
  intros H. specialize (H [0; 1; 10] 100 (1/10) 2%nat ltac:(discriminate)).
  pose proof huber_case_tau as Ht. unfold huber in H. rewrite huber_tau_shift in H by discriminate.
  set (tau := huber_tau [0; 1; 10]) in *.
  assert (M : median [0; 1; 10] = 1).
  { unfold median. simpl. unfold rsort, take, argsort_by. simpl.
    repeat match goal with |- context [Rleb ?a ?b] => destruct (Rleb_spec a b); [try lra|try lra]; simpl end. reflexivity. }
  rewrite map_shift_affine, median_affine, M in H by (try discriminate; lra). rewrite <- map_shift_affine in H.
  replace (1 * 1 + 100) with (1 + 100) in H by ring. cbn [huber_iter] in H. rewrite huber_step_shift in H by (try discriminate; lra).
  assert (E1 : huber_step [0; 1; 10] tau 1 = (9 + 10 * tau) / (18 + tau)).
  { unfold huber_step. cbn [map map2]. rewrite !rsum_cons. simpl rsum. replace (0 - 1) with (-1) by ring. replace (1 - 1) with 0 by ring. replace (10 - 1) with 9 by ring.
    rewrite Rabs_R0, (Rabs_left (-1)), (Rabs_right 9) by lra. rewrite (Rmax_left (- -1)), (Rmax_right 0), (Rmax_left 9) by lra.
    rewrite (Rmin_left 1 (tau / - -1)), (Rmin_left 1 (tau / (1 / 1000000000000))), (Rmin_right 1 (tau / 9)).
    - field. lra.
    - lra.
    - unfold Rdiv. rewrite Rmult_1_l, Rinv_inv. nra.
    - replace (tau / - -1) with tau by field. lra. }
  set (m1 := huber_step [0; 1; 10] tau 1) in *.
  assert (B1 : 12/10 < m1 < 14/10).
  { rewrite E1. split.
    - apply Rmult_lt_reg_r with (18 + tau); [lra|]. unfold Rdiv at 2. rewrite Rmult_assoc, Rinv_l by lra. lra.
    - apply Rmult_lt_reg_r with (18 + tau); [lra|]. unfold Rdiv at 1. rewrite Rmult_assoc, Rinv_l by lra. lra. }
  replace (m1 + 100 - (1 + 100)) with (m1 - 1) in H by ring. rewrite (Rabs_right (m1 - 1)) in H by lra.
  rewrite (Rabs_right 1), (Rabs_right (1 + 100)) in H by lra.
  destruct (Rleb_spec (m1 - 1) (1 / 10 * (1 + 100 + 1))); [|lra]. destruct (Rleb_spec (m1 - 1) (1 / 10 * (1 + 1))); [lra|].
  assert (E2 : huber_step [0; 1; 10] tau m1 = (1 + 10 * (tau / (10 - m1))) / (2 + tau / (10 - m1))).
  { unfold huber_step. cbn [map map2]. rewrite !rsum_cons. simpl rsum.
    rewrite (Rabs_left (0 - m1)), (Rabs_left (1 - m1)), (Rabs_right (10 - m1)) by lra.
    rewrite (Rmax_left (- (0 - m1))), (Rmax_left (- (1 - m1))), (Rmax_left (10 - m1)) by lra.
    rewrite (Rmin_left 1 (tau / - (0 - m1))), (Rmin_left 1 (tau / - (1 - m1))), (Rmin_right 1 (tau / (10 - m1))).
    - f_equal; ring.
    - apply Rmult_le_reg_r with (10 - m1); [lra|]. unfold Rdiv. rewrite Rmult_assoc, Rinv_l by lra. lra.
    - apply Rmult_le_reg_r with (- (1 - m1)); [lra|]. unfold Rdiv. rewrite Rmult_assoc, Rinv_l by lra. lra.
    - apply Rmult_le_reg_r with (- (0 - m1)); [lra|]. unfold Rdiv. rewrite Rmult_assoc, Rinv_l by lra. lra. }
  rewrite E2 in H.
  assert (H2 : m1 + 100 = (1 + 10 * (tau / (10 - m1))) / (2 + tau / (10 - m1)) + 100).
  { destruct (Rleb _ _) in H; exact H. }
  assert (W : tau / 9 < tau / (10 - m1)).
  { apply Rmult_lt_compat_l; [lra|]. apply Rinv_lt_contravar; nra. }
  set (w := tau / (10 - m1)) in *. assert (Hm : m1 * (2 + w) = 1 + 10 * w).
  { assert (0 < 2 + w) by lra. replace m1 with ((1 + 10 * w) / (2 + w)) by lra. field. lra. }
  assert (Hm' : m1 * (18 + tau) = 9 + 10 * tau) by (rewrite E1; field; lra).
  nra.
Qed.
Print Assumptions huber_shift_equivariant_refuted.

(** * C52: ensure_psd_matrix *)
(** For every non-empty square matrix it returns the symmetric part plus a non-negative multiple [k] of
    the identity; the result is symmetric with no eigenvalue below -1e-8; nothing is added when the
    symmetric part already has no eigenvalue below -1e-8, and otherwise exactly enough to make the least
    eigenvalue equal to 1e-8. *)
Theorem ensure_psd_repairs :
  forall eig n A, correct_eig eig -> (0 < n)%nat ->
    exists P k, ensure_psd eig n A jit = Ok P /\ 0 <= k /\
      (forall i j, P i j = (A i j + A j i) / 2 + (if Nat.eqb i j then k else 0)) /\
      symmetric n P /\ psd_tol n P jit /\
      (psd_tol n (symmetrise A) jit -> k = 0) /\
      (k <> 0 -> least_eigenvalue n P jit).
Proof.
  intros eig n A HE Hn. destruct (ensure_psd_ok eig n A jit HE Hn jit_pos) as (P & k & E & H0 & HP & HS & Ht & Hid & Hk & Hl).
  exists P, k. split; [exact E|]. split; [exact H0|]. split.
  { intros i j. rewrite HP. unfold symmetrise, eye, delta. destruct (Nat.eqb i j); ring. }
  split; [exact HS|]. split; [exact Ht|]. split; [exact Hid|].
  intros Hk0. destruct (Hl Hk0) as (l & (L1 & L2) & _ & Ek). split; [apply Hk; exact Hk0|].
  intros m Hm. assert (m - k <= l).
  { apply L2. intros x. specialize (Hm x). rewrite (mat_eq_quad n P (fun i j => symmetrise A i j + k * eye i j)) in Hm by (intros i j _ _; apply HP).
    rewrite quad_shift in Hm. lra. }
  lra.
Qed.
Print Assumptions ensure_psd_repairs.

(** An oracle meeting the hypothesis exists. *)
Example eig_exists : exists eig, correct_eig eig.
Proof. exists rayleigh. apply rayleigh_correct. Qed.

(** Finding: the result need not be positive semidefinite; eigenvalues in [-1e-8, 0) are left alone. *)
Theorem ensure_psd_result_psd_refuted :
  ~ (forall eig n A P, correct_eig eig -> (0 < n)%nat -> ensure_psd eig n A jit = Ok P -> psd n P).
Proof.
  intros H. set (A := fun i j => - (1/1000000000) * eye i j).
  destruct (ensure_psd_ok rayleigh 1 A jit rayleigh_correct ltac:(lia) jit_pos) as (P & k & E & _ & HP & _ & _ & Hid & _).
  specialize (H rayleigh 1%nat A P rayleigh_correct ltac:(lia) E (fun _ => 1)).
  assert (k = 0).
  { apply Hid. intros x. rewrite quad_symmetrise. unfold A. rewrite quad_scale, quad_eye. pose proof (dot_self_nonneg 1 x). unfold jit. nra. }
  subst k. unfold quad in H. simpl in H. rewrite HP in H. unfold symmetrise, A, eye, delta in H. simpl in H. lra.
Qed.
Print Assumptions ensure_psd_result_psd_refuted.

(** * C53: changing the unit of returns *)
(** Multiplying every return by [k] multiplies the estimated covariances by k^2. *)
Theorem covariance_scale_equivariant :
  (forall T p X k i j, wcov T p (mscale k X) i j = k ^ 2 * wcov T p X i j) /\
  (forall T N X span mp k out, covariance_ewma T N X span mp = Ok out ->
     exists out', covariance_ewma T N (mscale k X) span mp = Ok out' /\ forall i j, out' i j = k ^ 2 * out i j) /\
  (forall eig T N X c k out, correct_eig eig -> k <> 0 -> shrink_covariance_oas eig T N X c = Ok out ->
     exists out', shrink_covariance_oas eig T N (mscale k X) c = Ok out' /\ mat_eq N out' (fun i j => k ^ 2 * out i j)) /\
  (forall eig T N X S k out, correct_eig eig -> psd N S -> (1 <= N)%nat -> k <> 0 ->
     shrink_covariance_ledoit_wolf eig T N X N N S LwIdentity = Ok out ->
     exists out', shrink_covariance_ledoit_wolf eig T N (mscale k X) N N (mscale (k * k) S) LwIdentity = Ok out' /\
       mat_eq N out' (fun i j => k ^ 2 * out i j)).
Proof.
  split; [|split; [|split]].
  - intros T p X k i j. unfold wcov, symmetrise.
    assert (Em : forall a, wmean T p (mscale k X) a = k * wmean T p X a).
    { intros a. unfold wmean, mscale. rewrite <- sumn_scale. apply sumn_ext. intros; ring. }
    assert (E : forall a b, sumn T (fun t => (mscale k X t a - wmean T p (mscale k X) a) * (mscale k X t b - wmean T p (mscale k X) b) * p t) =
                       k ^ 2 * sumn T (fun t => (X t a - wmean T p X a) * (X t b - wmean T p X b) * p t)).
    { intros a b. rewrite <- sumn_scale. apply sumn_ext. intros t Ht. rewrite !Em. unfold mscale. ring. }
    rewrite !E. field.
  - intros T N X span mp k out H. unfold covariance_ewma in *. destruct (_ <? _)%Z; [discriminate|]. destruct (Reqb _ 0); [discriminate|].
    destruct T as [|t]; [discriminate|]. injection H as <-. eexists. split; [reflexivity|].
    assert (E : forall a b, ewma_rec (1 - 2 / (span + 1)) (mscale k X) t a b = k ^ 2 * ewma_rec (1 - 2 / (span + 1)) X t a b).
    { intros a b. rewrite !ewma_weighted, <- sumn_scale. apply sumn_ext. intros; unfold mscale; ring. }
    intros i j. unfold symmetrise. rewrite !E. field.
  - intros eig T N X c k out HE Hk H.
    assert (HT : (1 <= T)%nat /\ (1 <= N)%nat).
    { unfold shrink_covariance_oas in H. destruct (Nat.eqb_spec T 0); [discriminate|]. destruct (Nat.eqb_spec N 0); [discriminate|]. lia. }
    destruct (oas_total eig T N (mscale k X) c HE) as (out' & H'); try apply HT. exists out'. split; [exact H'|].
    intros i j Hi Hj. rewrite (oas_scale eig T N X c k out out' HE Hk H H' i j Hi Hj). unfold mscale. ring.
  - intros eig T N X S k out HE HS HN Hk H. destruct (lw_scale eig T N X N N S k out HE HS HN Hk H) as (out' & H1 & H2).
    exists out'. split; [exact H1|]. intros i j Hi Hj. rewrite (H2 i j Hi Hj). unfold mscale. ring.
Qed.
Print Assumptions covariance_scale_equivariant.

(** Finding: the constant-correlation Ledoit-Wolf estimator depends on the unit: the intensity of the same
    data changes from 0 to 1 when returns are multiplied by 4. *)
Definition ccS : mat := fun i j => if Nat.eqb i j then 1 else if Nat.eqb (i + j) 1 then 1/2 else 0.
Lemma ccS_psd : psd 3 ccS.
Proof. intros x. unfold quad, ccS. simpl. nra. Qed.
Lemma lw_total eig T N R_ S tg d : correct_eig eig -> (1 <= N)%nat -> (1 <= T)%nat -> tg <> LwOther ->
  lw_delta T N (center T R_) (symmetrise S) tg = Some d -> exists out, shrink_covariance_ledoit_wolf eig T N R_ N N S tg = Ok out.
Proof.
  intros HE HN HT Ht Ed. unfold shrink_covariance_ledoit_wolf. destruct (Nat.eqb_spec T 0); [lia|]. rewrite !Nat.eqb_refl. cbn [andb negb orb].
  assert (E : forall tg', tg' = tg -> exists out, match lw_delta T N (center T R_) (symmetrise S) tg' with
     | Some d => let* P := ensure_psd eig N (fun i j => d * lw_F N (symmetrise S) tg' i j + (1 - d) * symmetrise S i j) jit in Ok (symmetrise P)
     | None => Err ValueError end = Ok out).
  { intros tg' ->. rewrite Ed. destruct (ensure_psd_ok eig N (fun i j => d * lw_F N (symmetrise S) tg i j + (1 - d) * symmetrise S i j) jit HE ltac:(lia) jit_pos) as (P & k & EP & _).
    rewrite EP. cbn [bind]. eauto. }
  destruct tg; [apply (E LwIdentity eq_refl)|apply (E LwConstCorr eq_refl)|congruence].
Qed.
Definition zero_returns : mat := fun _ _ => 0.
Lemma ccS_delta k : k = 1 \/ k = 4 ->
  lw_delta 1 3 (center 1 (mscale k zero_returns)) (symmetrise (mscale (k * k) ccS)) LwConstCorr = Some (if Reqb k 1 then 0 else 1).
Proof.
  intros Hk.
  assert (Hs : sqrt (k * k) = k) by (apply sqrt_square; destruct Hk; lra).
  assert (Ec : center 1 (mscale k zero_returns) = zero_returns).
  { apply functional_extensionality; intros t. apply functional_extensionality; intros i. unfold center, mscale, zero_returns. simpl. lra. }
  assert (Es : symmetrise (mscale (k * k) ccS) = mscale (k * k) ccS).
  { rewrite symmetrise_scale. f_equal. apply functional_extensionality; intros i. apply functional_extensionality; intros j. unfold symmetrise, ccS.
    rewrite (Nat.eqb_sym j i), (Nat.add_comm j i). lra. }
  rewrite Ec, Es. set (S := mscale (k * k) ccS).
  assert (Hd : forall i, S i i = k * k) by (intros i; unfold S, mscale, ccS; rewrite Nat.eqb_refl; ring).
  assert (Hpos : 0 < k * k) by (destruct Hk; subst; lra).
  unfold lw_delta. replace (Nat.leb 3 1) with false by reflexivity.
  assert (Eex : existsb (fun i => Rleb (S i i) 0) (seq 0 3) = false).
  { simpl. rewrite !Hd. destruct (Rleb_spec (k * k) 0); [lra|reflexivity]. }
  rewrite Eex. cbn [orb].
  assert (EF : forall i j, (i < 3)%nat -> (j < 3)%nat -> lw_F 3 S LwConstCorr i j = if Nat.eqb i j then k * k else k * k / 6).
  { intros i j Hi Hj. cbn [lw_F]. rewrite !Hd, Hs. destruct (Nat.eqb i j); [reflexivity|].
    unfold total. cbn [sumn]. rewrite !Hd, !Hs. unfold S, mscale, ccS. simpl. field. destruct Hk; lra. }
  assert (Ep : forall i j, lw_pi 1 zero_returns S i j = S i j ^ 2) by (intros; unfold lw_pi, zero_returns; simpl; field).
  assert (Etot : total 3 (lw_pi 1 zero_returns S) = (k * k) ^ 2 * (7/2)).
  { unfold total. simpl sumn. rewrite !Ep. unfold S, mscale, ccS. simpl. lra. }
  assert (Etr : trace 3 (lw_pi 1 zero_returns S) = (k * k) ^ 2 * 3).
  { unfold trace. simpl sumn. rewrite !Ep, !Hd. ring. }
  assert (Eg : frob2 3 (fun i j => S i j - lw_F 3 S LwConstCorr i j) = (k * k) ^ 2 / 3).
  { unfold frob2. cbn [sumn]. rewrite !EF by lia. unfold S, mscale, ccS. simpl. field. }
  assert (Eoff : total 3 (fun i j => if Nat.eqb i j then 0 else lw_F 3 S LwConstCorr i j) = k * k).
  { unfold total. cbn [sumn]. rewrite !EF by lia. simpl. field. }
  rewrite Eg, Etot, Etr, Eoff.
  destruct (Reqb_spec ((k * k) ^ 2 / 3) 0); [nra|]. f_equal.
  replace (INR 3) with 3 by (simpl; lra). replace (INR 1) with 1 by reflexivity.
  destruct Hk; subst.
  - destruct (Reqb_spec 1 1); [|lra]. match goal with |- clip01 ?e = _ => replace e with (- (235/36)) by field end.
    unfold clip01. rewrite Rmax_right by lra. apply Rmin_left. lra.
  - destruct (Reqb_spec 4 1); [lra|]. match goal with |- clip01 ?e = _ => replace e with (235/18) by field end.
    unfold clip01. rewrite Rmax_left by lra. apply Rmin_right. lra.
Qed.
Theorem ledoit_wolf_constant_correlation_scale_refuted :
  ~ (forall eig T N X S k out out', correct_eig eig -> psd N S -> 0 < k ->
       shrink_covariance_ledoit_wolf eig T N X N N S LwConstCorr = Ok out ->
       shrink_covariance_ledoit_wolf eig T N (mscale k X) N N (mscale (k * k) S) LwConstCorr = Ok out' ->
       mat_eq N out' (fun i j => k ^ 2 * out i j)).
Proof.
  intros H.
  pose proof (ccS_delta 1 (or_introl eq_refl)) as D1. pose proof (ccS_delta 4 (or_intror eq_refl)) as D4.
  assert (P1 : psd 3 (mscale (1 * 1) ccS)) by (apply psd_mscale; [lra|apply ccS_psd]).
  assert (P4 : psd 3 (mscale (4 * 4) ccS)) by (apply psd_mscale; [lra|apply ccS_psd]).
  assert (E4 : mscale (4 * 4) (mscale (1 * 1) ccS) = mscale (4 * 4) ccS).
  { apply functional_extensionality; intros i. apply functional_extensionality; intros j. unfold mscale. ring. }
  assert (Z4 : mscale 4 (mscale 1 zero_returns) = mscale 4 zero_returns).
  { apply functional_extensionality; intros i. apply functional_extensionality; intros j. unfold mscale. ring. }
  destruct (lw_total rayleigh 1 3 (mscale 1 zero_returns) (mscale (1 * 1) ccS) LwConstCorr _ rayleigh_correct ltac:(lia) ltac:(lia) ltac:(discriminate) D1) as (o1 & O1).
  destruct (lw_total rayleigh 1 3 (mscale 4 zero_returns) (mscale (4 * 4) ccS) LwConstCorr _ rayleigh_correct ltac:(lia) ltac:(lia) ltac:(discriminate) D4) as (o4 & O4).
  assert (O4' := O4). rewrite <- E4, <- Z4 in O4'.
  specialize (H rayleigh 1%nat 3%nat _ _ 4 o1 o4 rayleigh_correct P1 ltac:(lra) O1 O4').
  destruct (lw_ok _ _ _ _ _ _ _ _ _ rayleigh_correct P1 ltac:(lia) O1) as (_ & d1 & _ & Ed1 & M1 & _).
  destruct (lw_ok _ _ _ _ _ _ _ _ _ rayleigh_correct P4 ltac:(lia) O4) as (_ & d4 & _ & Ed4 & M4 & _).
  rewrite D1 in Ed1. rewrite D4 in Ed4. destruct (Reqb_spec 1 1); [|lra]. destruct (Reqb_spec 4 1); [lra|].
  injection Ed1 as <-. injection Ed4 as <-.
  specialize (H 0%nat 2%nat ltac:(lia) ltac:(lia)). rewrite M4, M1 in H by lia.
  assert (S2 : forall k, symmetrise (mscale k ccS) 0%nat 2%nat = 0) by (intros; unfold symmetrise, mscale, ccS; simpl; lra).
  rewrite !S2 in H.
  assert (F : lw_F 3 (symmetrise (mscale (4 * 4) ccS)) LwConstCorr 0%nat 2%nat = 16 / 6).
  { cbn [lw_F]. unfold total. simpl. unfold symmetrise, mscale, ccS. simpl.
    replace ((4 * 4 * 1 + 4 * 4 * 1) / 2) with (4 * 4) by field. rewrite sqrt_square by lra. field. }
  rewrite F in H. lra.
Qed.
Print Assumptions ledoit_wolf_constant_correlation_scale_refuted.

(** * C54: POET and Tyler *)
(** POET: at least every sample variance is on the diagonal (exactly, when no repair is needed); each
    covariance moves by at most the threshold times the two scales; a zero threshold reproduces the sample
    covariance whatever the factors are. *)
Theorem poet_preserves_variances :
  forall eig T N k X B tau st out, correct_eig eig -> (2 <= T)%nat ->
    factor_covariance_poet eig T N k X B tau st = Ok out ->
    exists c, 0 <= c /\
      (forall i, (i < N)%nat -> out i i = np_cov T X 1 i i + c) /\
      (forall i j, (i < N)%nat -> (j < N)%nat -> i <> j ->
         Rabs (out i j - np_cov T X 1 i j) <= tau * (poet_scale T X st i * poet_scale T X st j)) /\
      symmetric N out /\ psd_tol N out jit /\
      (tau = 0 -> mat_eq N out (np_cov T X 1)).
Proof.
  intros eig T N k X B tau st out HE HT H. unfold factor_covariance_poet in H.
  destruct (Nat.leb_spec N 1); [discriminate|]. destruct (Rltb_spec tau 0); [discriminate|].
  assert (Ht : 0 <= tau) by lra.
  destruct (ensure_psd_ok eig N (poet_sigma T k X B tau st) jit HE ltac:(lia) jit_pos) as (P & c & EP & Hc & HP & HS & Htol & Hid & _).
  rewrite EP in H. injection H as <-.
  assert (Hen := fun i j => poet_sigma_entries T k X B tau st i j HT Ht). cbv zeta in Hen.
  assert (Hsym : forall i j, symmetrise (poet_sigma T k X B tau st) i j = poet_sigma T k X B tau st i j).
  { intros i j. destruct (Hen j i) as (_ & _ & E). unfold symmetrise. rewrite E. lra. }
  exists c. split; [exact Hc|]. split.
  { intros i Hi. rewrite HP, Hsym. destruct (Hen i i) as (_ & -> & _). unfold eye, delta. rewrite Nat.eqb_refl. ring. }
  split.
  { intros i j Hi Hj Hne. rewrite HP, Hsym. unfold eye, delta. destruct (Nat.eqb_spec i j); [congruence|]. rewrite Rmult_0_r, Rplus_0_r. apply Hen. }
  split; [exact HS|]. split; [exact Htol|]. intros ->.
  assert (Hz : forall i j, poet_sigma T k X B 0 st i j = np_cov T X 1 i j).
  { intros i j. destruct (Hen i j) as (E & _). rewrite Rmult_0_l in E. pose proof (Rabs_pos (poet_sigma T k X B 0 st i j - np_cov T X 1 i j)).
    destruct (Req_dec (poet_sigma T k X B 0 st i j - np_cov T X 1 i j) 0) as [|Hn]; [lra|]. apply Rabs_pos_lt in Hn. lra. }
  assert (c = 0).
  { apply Hid. intros x. rewrite (mat_eq_quad N _ (np_cov T X 1)) by (intros i j _ _; rewrite Hsym; apply Hz).
    pose proof (np_cov_psd T N X HT x). pose proof (dot_self_nonneg N x). pose proof jit_pos. nra. }
  subst c. intros i j _ _. rewrite HP, Hsym, Hz. ring.
Qed.
Print Assumptions poet_preserves_variances.

Example poet_case : exists out, factor_covariance_poet rayleigh 4 2 1 (fun t i => INR (t * i)) (fun _ _ => 1) (1/2) true = Ok out.
Proof.
  unfold factor_covariance_poet. cbn [Nat.leb]. destruct (Rltb_spec (1/2) 0); [lra|].
  destruct (ensure_psd_ok rayleigh 2 (poet_sigma 4 1 (fun t i => INR (t * i)) (fun _ _ => 1) (1/2) true) jit rayleigh_correct ltac:(lia) jit_pos) as (P & k & E & _). eauto.
Qed.

(** Finding (Tyler): the returned matrix has only 1/N of the sample's total variance, so with two or more
    assets the estimate never has the scale of the data. *)
Theorem tyler_total_variance :
  forall eig pinv T N R_ s tol m fix_ out, correct_eig eig -> (1 <= m)%nat ->
    (exists t i, (t < T)%nat /\ (i < N)%nat /\ center T R_ t i <> 0) ->
    robust_covariance_tyler eig pinv T N R_ s None tol m fix_ = Ok out ->
    psd N out /\ symmetric N out /\ trace N out = trace N (np_cov T R_ 1) / INR N.
Proof. intros. eapply tyler_psd_trace; eauto. Qed.
Print Assumptions tyler_total_variance.

Theorem tyler_keeps_total_variance_refuted :
  forall eig pinv T N R_ s tol m fix_ out, correct_eig eig -> (1 <= m)%nat ->
    (exists t i, (t < T)%nat /\ (i < N)%nat /\ center T R_ t i <> 0) ->
    robust_covariance_tyler eig pinv T N R_ s None tol m fix_ = Ok out ->
    trace N out < trace N (np_cov T R_ 1).
Proof.
  intros eig pinv T N R_ s tol m fix_ out HE Hm Hx H. destruct (tyler_total_variance _ _ _ _ _ _ _ _ _ _ HE Hm Hx H) as (_ & _ & ->).
  unfold robust_covariance_tyler in H. destruct (_ || _)%bool; [discriminate|]. destruct (negb _); [discriminate|].
  destruct (Nat.leb_spec N 1); [discriminate|]. destruct (Nat.leb_spec T 1); [discriminate|].
  destruct Hx as (t & i & Ht & Hi & Hx).
  assert (0 < trace N (np_cov T R_ 1)).
  { unfold trace, np_cov. rewrite sumn_div. apply Rmult_lt_0_compat; [|apply Rinv_0_lt_compat, lt_0_INR; lia].
    apply (sum2_pos N T (fun a u => center T R_ u a * center T R_ u a) i t); auto; [intros; nra|nra]. }
  assert (HN : 2 <= INR N) by (apply (le_INR 2); lia).
  apply Rmult_lt_reg_r with (INR N); [lra|]. unfold Rdiv. rewrite Rmult_assoc, Rinv_l by lra. nra.
Qed.
Print Assumptions tyler_keeps_total_variance_refuted.

Example tyler_case : exists out, robust_covariance_tyler rayleigh (fun _ _ => eye) 4 2 (fun t i => if Nat.eqb t i then 1 else 0) 0 None (1/100) 3 false = Ok out.
Proof.
  unfold robust_covariance_tyler. cbn [Nat.eqb orb Nat.leb].
  destruct (Rleb_spec 0 0); [|lra]. destruct (Rleb_spec 0 1); [|lra]. cbn [andb negb].
  match goal with |- exists _, bind (ensure_psd _ 2 ?M jit) _ = _ => destruct (ensure_psd_ok rayleigh 2 M jit rayleigh_correct ltac:(lia) jit_pos) as (P & k & E & _) end.
  rewrite E. cbn [bind]. eauto.
Qed.

(** * C55: scenario probabilities in estimate_moments *)
(** Sample estimates use the probabilities given; finding: OAS, EWMA, POET and Tyler covariances are the
    same whatever probabilities are passed. *)
Theorem moments_use_probabilities :
  forall eig inv pinv T N X p mu S, is_prob T p ->
    estimate_moments eig inv pinv T N X (Some (T, p)) MeanSample CovSample = Ok (mu, S) ->
    (forall w, dot N mu w = expectation T p (port N X w)) /\ (forall w, quad N S w = variance T p (port N X w)).
Proof.
  intros eig inv pinv T N X p mu S HP H. unfold estimate_moments in H. apply bind_ok in H as ((m0 & S0) & E & H). cbn in H. injection H as <- <-.
  unfold sample_pair in E. apply bind_ok in E as (((m1 & S1) & l) & E & H). injection H as <- <-.
  unfold estimate_sample_moments in E. destruct (negb (Nat.eqb T T)); [discriminate|]. destruct (negb _); [discriminate|]. cbn in E. injection E as <- <- <-.
  split; intros w; [symmetry; apply port_mean|apply quad_wcov].
Qed.
Print Assumptions moments_use_probabilities.

Definition ignores_probabilities (cc : cov_choice) : Prop :=
  match cc with CovOas _ | CovEwma _ _ | CovPoet _ _ _ _ | CovTyler _ _ _ => True | _ => False end.
Theorem moments_probabilities_matter_refuted :
  forall eig inv pinv T N X p p' mc mc' cc r r', ignores_probabilities cc ->
    estimate_moments eig inv pinv T N X p mc cc = Ok r -> estimate_moments eig inv pinv T N X p' mc' cc = Ok r' -> snd r = snd r'.
Proof.
  intros eig inv pinv T N X p p' mc mc' cc r r' Hc H H'. unfold estimate_moments in *.
  apply bind_ok in H as (ms & _ & H). apply bind_ok in H as (mu & _ & H). apply bind_ok in H as (S1 & E & H). injection H as <-.
  apply bind_ok in H' as (ms' & _ & H'). apply bind_ok in H' as (mu' & _ & H'). apply bind_ok in H' as (S2 & E' & H'). injection H' as <-.
  simpl. destruct cc; try contradiction; rewrite E in E'; injection E' as <-; reflexivity.
Qed.
Print Assumptions moments_probabilities_matter_refuted.
