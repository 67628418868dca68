(** Positive semi-definite matrices: Gram factorisation, Hadamard products and exponentials.
    General mathematics, no model content. *)
From Coq Require Import Lia Lra Psatz.
From Verif Require Import RBase QpBase.
Open Scope R_scope.

Lemma quad_S n P x : symmetric (S n) P ->
  quad (S n) P x = quad n P x + 2 * x n * sumn n (fun i => P i n * x i) + P n n * (x n * x n).
Proof.
  intros HS. unfold quad. change (sumn n (fun i => sumn (S n) (fun j => P i j * x i * x j)) + sumn (S n) (fun j => P n j * x n * x j) =
    sumn n (fun i => sumn n (fun j => P i j * x i * x j)) + 2 * x n * sumn n (fun i => P i n * x i) + P n n * (x n * x n)).
  rewrite (sumn_ext n (fun i => sumn (S n) (fun j => P i j * x i * x j)) (fun i => sumn n (fun j => P i j * x i * x j) + x n * (P i n * x i))).
  2:{ intros i Hi. simpl. ring. }
  rewrite sumn_plus, sumn_scale. simpl.
  rewrite (sumn_ext n (fun j => P n j * x n * x j) (fun j => x n * (P j n * x j))).
  2:{ intros j Hj. rewrite (HS n j) by lia. ring. }
  rewrite sumn_scale. ring.
Qed.

Lemma psd_lead n P : symmetric (S n) P -> psd (S n) P -> psd n P.
Proof.
  intros HS HP x. specialize (HP (fun i => if Nat.ltb i n then x i else 0)).
  rewrite quad_S in HP by exact HS. rewrite Nat.ltb_irrefl in HP.
  rewrite (quad_ext n P P _ x) in HP; [|auto|]. 2:{ intros i Hi. apply Nat.ltb_lt in Hi. rewrite Hi. reflexivity. }
  lra.
Qed.

Definition with_last (n : nat) (x : vec) (s : R) : vec := fun i => if Nat.ltb i n then x i else s.
Lemma quad_with_last n P x s : symmetric (S n) P ->
  quad (S n) P (with_last n x s) = quad n P x + 2 * s * sumn n (fun i => P i n * x i) + P n n * (s * s).
Proof.
  intros HS. rewrite quad_S by exact HS. unfold with_last at 2 4 5. rewrite Nat.ltb_irrefl.
  f_equal. f_equal.
  - apply quad_ext; auto. intros i Hi. unfold with_last. apply Nat.ltb_lt in Hi. rewrite Hi. reflexivity.
  - f_equal. apply sumn_ext. intros i Hi. unfold with_last. apply Nat.ltb_lt in Hi. rewrite Hi. reflexivity.
Qed.

Lemma psd_diag n P i : psd n P -> (i < n)%nat -> 0 <= P i i.
Proof.
  intros HP Hi. specialize (HP (fun k => delta k i)). unfold quad in HP.
  rewrite (sumn_ext n _ (fun a => delta a i * P i i)) in HP.
  2:{ intros a Ha. rewrite (sumn_ext n _ (fun b => delta b i * (P a b * delta a i))) by (intros; ring).
      rewrite sumn_delta by exact Hi. unfold delta. destruct (Nat.eqb a i) eqn:E; [apply Nat.eqb_eq in E; subst; ring|ring]. }
  rewrite (sumn_delta n i (fun _ => P i i)) in HP by exact Hi. exact HP.
Qed.

Lemma psd_zero_pivot n P : symmetric (S n) P -> psd (S n) P -> P n n = 0 -> forall i, (i < n)%nat -> P i n = 0.
Proof.
  intros HS HP HZ i Hi.
  assert (H : forall s, 0 <= P i i + 2 * s * P i n).
  { intros s. pose proof (HP (with_last n (fun k => delta k i) s)) as H. rewrite quad_with_last in H by exact HS.
    rewrite HZ in H. rewrite (sumn_ext n _ (fun k => delta k i * P k n)) in H by (intros; ring).
    rewrite (sumn_delta n i (fun k => P k n)) in H by exact Hi.
    assert (E : quad n P (fun k => delta k i) = P i i).
    { unfold quad. rewrite (sumn_ext n _ (fun a => delta a i * P i i)).
      2:{ intros a Ha. rewrite (sumn_ext n _ (fun b => delta b i * (P a b * delta a i))) by (intros; ring).
          rewrite sumn_delta by exact Hi. unfold delta. destruct (Nat.eqb a i) eqn:E; [apply Nat.eqb_eq in E; subst; ring|ring]. }
      apply (sumn_delta n i (fun _ => P i i)). exact Hi. }
    rewrite E in H. lra. }
  destruct (Req_dec (P i n) 0) as [|Hn]; [assumption|exfalso].
  specialize (H (- (P i i + 1) / (2 * P i n))). 
  replace (2 * (- (P i i + 1) / (2 * P i n)) * P i n) with (- (P i i + 1)) in H by (field; exact Hn). lra.
Qed.

Lemma schur_psd n P : symmetric (S n) P -> psd (S n) P -> 0 < P n n ->
  psd n (fun i j => P i j - P i n * P j n / P n n).
Proof.
  intros HS HP Hd x. set (c := sumn n (fun i => P i n * x i)).
  pose proof (HP (with_last n x (- c / P n n))) as H. rewrite quad_with_last in H by exact HS. fold c in H.
  assert (E : quad n (fun i j => P i j - P i n * P j n / P n n) x = quad n P x - c * c / P n n).
  { rewrite (quad_ext n _ (fun i j => P i j + (- / P n n) * (P i n * P j n)) x x); [|intros; field; lra|auto].
    rewrite quad_plus, quad_scale. replace (quad n (fun i j => P i n * P j n) x) with (c * c); [field; lra|].
    unfold quad. rewrite (sumn_ext n (fun i => sumn n (fun j => P i n * P j n * x i * x j)) (fun i => (P i n * x i) * c)).
    - rewrite sumn_scale_r. reflexivity.
    - intros i Hi. rewrite (sumn_ext n _ (fun j => (P i n * x i) * (P j n * x j))) by (intros; ring). rewrite sumn_scale. reflexivity. }
  rewrite E. replace (2 * (- c / P n n) * c + P n n * (- c / P n n * (- c / P n n))) with (- (c * c / P n n)) in H by (field; lra).
  replace (quad n P x + 2 * (- c / P n n) * c + P n n * (- c / P n n * (- c / P n n))) with (quad n P x - c * c / P n n) in H by (field; lra).
  exact H.
Qed.

(** Every symmetric PSD matrix is a Gram matrix. *)
Lemma psd_gram n : forall P, symmetric n P -> psd n P ->
  exists B, forall i j, (i < n)%nat -> (j < n)%nat -> P i j = sumn n (fun t => B i t * B j t).
Proof.
  induction n as [|n IH]; intros P HS HP.
  { exists (fun _ _ => 0). intros i j Hi. lia. }
  assert (HS' : symmetric n P) by (intros i j Hi Hj; apply HS; lia).
  pose proof (psd_diag (S n) P n HP ltac:(lia)) as Hd.
  destruct (Req_dec (P n n) 0) as [HZ|HZ].
  - destruct (IH P HS' (psd_lead n P HS HP)) as (B & HB).
    exists (fun i t => if Nat.ltb i n then (if Nat.ltb t n then B i t else 0) else 0).
    intros i j Hi Hj. simpl. rewrite Nat.ltb_irrefl.
    assert (HC : forall k, (k < n)%nat -> Nat.ltb k n = true) by (intros k Hk; apply Nat.ltb_lt; exact Hk).
    destruct (Nat.eq_dec i n) as [->|Hin]; [|destruct (Nat.eq_dec j n) as [->|Hjn]].
    + rewrite Nat.ltb_irrefl. rewrite sumn_0 by (intros; ring).
      destruct (Nat.eq_dec j n) as [->|Hjn]; [rewrite HZ; destruct (Nat.ltb n n); ring|].
      rewrite (HS n j) by lia. rewrite (psd_zero_pivot n P HS HP HZ j) by lia. destruct (Nat.ltb j n); ring.
    + rewrite Nat.ltb_irrefl. rewrite sumn_0 by (intros; ring).
      rewrite (psd_zero_pivot n P HS HP HZ i) by lia. destruct (Nat.ltb i n); ring.
    + rewrite (HC i) by lia. rewrite (HC j) by lia. rewrite HB by lia. rewrite Rmult_0_l, Rplus_0_r.
      apply sumn_ext. intros t Ht. rewrite HC by exact Ht. reflexivity.
  - assert (Hp : 0 < P n n) by lra.
    set (Q := fun i j => P i j - P i n * P j n / P n n).
    assert (HQ : symmetric n Q). { intros i j Hi Hj. unfold Q. rewrite (HS i j) by lia. field. exact HZ. }
    destruct (IH Q HQ (schur_psd n P HS HP Hp)) as (B & HB).
    assert (Hs : sqrt (P n n) * sqrt (P n n) = P n n) by (apply sqrt_sqrt; lra).
    assert (Hs0 : sqrt (P n n) <> 0) by (intros E; rewrite E in Hs; lra).
    exists (fun i t => if Nat.ltb t n then (if Nat.ltb i n then B i t else 0) else P i n / sqrt (P n n)).
    assert (HC : forall k, (k < n)%nat -> Nat.ltb k n = true) by (intros k Hk; apply Nat.ltb_lt; exact Hk).
    intros i j Hi Hj. simpl. rewrite Nat.ltb_irrefl.
    assert (HT : P i n / sqrt (P n n) * (P j n / sqrt (P n n)) = P i n * P j n / P n n).
    { rewrite <- Hs at 3. field. exact Hs0. }
    rewrite HT.
    destruct (Nat.eq_dec i n) as [->|Hin]; [|destruct (Nat.eq_dec j n) as [->|Hjn]].
    + rewrite sumn_0. 2:{ intros t Ht. rewrite HC by exact Ht. rewrite Nat.ltb_irrefl. ring. }
      rewrite (HS n j) by lia. field. exact HZ.
    + rewrite sumn_0. 2:{ intros t Ht. rewrite HC by exact Ht. rewrite Nat.ltb_irrefl. ring. }
      field. exact HZ.
    + rewrite (sumn_ext n _ (fun t => B i t * B j t)).
      2:{ intros t Ht. rewrite (HC t Ht), (HC i), (HC j) by lia. reflexivity. }
      rewrite <- HB by lia. unfold Q. ring.
Qed.

(** Schur product theorem. *)
Lemma hadamard_psd n A B : symmetric n A -> psd n A -> psd n B -> psd n (fun i j => A i j * B i j).
Proof.
  intros HS HA HB x. destruct (psd_gram n A HS HA) as (C & HC).
  rewrite (quad_ext n _ (fun i j => sumn n (fun t => C i t * C j t * B i j)) x x); [| |auto].
  2:{ intros i j Hi Hj. rewrite HC by assumption. rewrite sumn_scale_r. reflexivity. }
  unfold quad.
  rewrite (sumn_ext n _ (fun i => sumn n (fun t => sumn n (fun j => B i j * (x i * C i t) * (x j * C j t))))).
  2:{ intros i Hi. rewrite <- sumn_swap. apply sumn_ext. intros j Hj. rewrite Rmult_assoc, <- sumn_scale_r. apply sumn_ext. intros; ring. }
  rewrite sumn_swap. apply sumn_nonneg. intros t Ht. apply (HB (fun i => x i * C i t)).
Qed.

Lemma ones_psd n : psd n (fun _ _ => 1).
Proof.
  intros x. rewrite (quad_ext n _ (fun i j => sumn 1 (fun t => 1 * 1)) x x); [apply (gram_psd n 1 (fun _ _ => 1))|simpl; intros; ring|auto].
Qed.
Lemma pow_psd n A k : symmetric n A -> psd n A -> psd n (fun i j => A i j ^ k).
Proof.
  intros HS HA. induction k as [|k IH]; simpl; [apply ones_psd|]. apply hadamard_psd; assumption.
Qed.

(** ** Entrywise exponential *)
Definition exp_part (x : R) (m : nat) : R := sumn m (fun k => x ^ k / INR (fact k)).
Lemma exp_part_sum_f x m : exp_part x (S m) = sum_f_R0 (fun k => / INR (fact k) * x ^ k) m.
Proof.
  unfold exp_part. induction m as [|m IH]; [simpl; unfold Rdiv; ring|].
  cbn [sum_f_R0]. rewrite <- IH. cbn [sumn]. unfold Rdiv. ring.
Qed.
Lemma exp_part_cv x : Un_cv (exp_part x) (exp x).
Proof.
  intros e He. unfold exp. destruct (exist_exp x) as (l & Hl). simpl. destruct (Hl e He) as (n0 & Hn).
  exists (S n0). intros [|m] Hm; [lia|]. rewrite exp_part_sum_f. apply Hn. lia.
Qed.
Lemma sumn_cv n (u : nat -> nat -> R) l : (forall i, (i < n)%nat -> Un_cv (u i) (l i)) ->
  Un_cv (fun m => sumn n (fun i => u i m)) (sumn n l).
Proof.
  induction n as [|n IH]; intros H; simpl.
  - intros e He. exists 0%nat. intros. unfold R_dist. rewrite Rminus_diag_eq, Rabs_R0; [exact He|reflexivity].
  - apply (CV_plus (fun m => sumn n (fun i => u i m)) (u n)); [apply IH; intros; apply H; lia|apply H; lia].
Qed.
Lemma cv_scale u l k : Un_cv u l -> Un_cv (fun m => u m * k) (l * k).
Proof.
  intros H. apply (CV_mult u (fun _ => k)); [exact H|]. intros e He. exists 0%nat. intros. unfold R_dist. rewrite Rminus_diag_eq, Rabs_R0; [exact He|reflexivity].
Qed.
Lemma quad_cv n (U : nat -> mat) A x : (forall i j, (i < n)%nat -> (j < n)%nat -> Un_cv (fun m => U m i j) (A i j)) ->
  Un_cv (fun m => quad n (U m) x) (quad n A x).
Proof.
  intros H. unfold quad. apply (sumn_cv n (fun i m => sumn n (fun j => U m i j * x i * x j))). intros i Hi.
  apply (sumn_cv n (fun j m => U m i j * x i * x j)). intros j Hj. apply cv_scale, cv_scale, H; assumption.
Qed.
Lemma cv_nonneg u l : Un_cv u l -> (forall m, 0 <= u m) -> 0 <= l.
Proof.
  intros H Hu. destruct (Rle_or_lt 0 l) as [|Hl]; [assumption|exfalso].
  destruct (H (- l)) as (n0 & Hn); [lra|]. specialize (Hn n0 (Nat.le_refl _)). specialize (Hu n0). unfold R_dist in Hn.
  rewrite Rabs_right in Hn by lra. lra.
Qed.

Lemma quad_sumn n m (F : nat -> mat) x : quad n (fun i j => sumn m (fun k => F k i j)) x = sumn m (fun k => quad n (F k) x).
Proof.
  induction m as [|m IH]; simpl.
  - unfold quad. apply sumn_0. intros i Hi. apply sumn_0. intros; ring.
  - rewrite (quad_plus n (fun i j => sumn m (fun k => F k i j)) (F m)), IH. reflexivity.
Qed.

(** [exp A - 1] entrywise: sum of the positive powers. *)
Lemma expm1_psd n A : symmetric n A -> psd n A -> psd n (fun i j => exp (A i j) - 1).
Proof.
  intros HS HA x.
  apply (cv_nonneg (fun m => quad n (fun i j => exp_part (A i j) (S m) - 1) x)).
  - apply quad_cv. intros i j Hi Hj e He. destruct (exp_part_cv (A i j) e He) as (n0 & Hn). exists n0. intros m Hm.
    specialize (Hn (S m) ltac:(lia)). unfold R_dist in *. replace (exp_part (A i j) (S m) - 1 - (exp (A i j) - 1)) with (exp_part (A i j) (S m) - exp (A i j)) by ring. exact Hn.
  - intros m. rewrite (quad_ext n _ (fun i j => sumn m (fun k => A i j ^ (S k) / INR (fact (S k)))) x x); [| |auto].
    + rewrite (quad_sumn n m (fun k i j => A i j ^ (S k) / INR (fact (S k)))). apply sumn_nonneg. intros k Hk.
      rewrite (quad_ext n _ (fun i j => / INR (fact (S k)) * A i j ^ (S k)) x x); [|intros; unfold Rdiv; ring|auto].
      rewrite quad_scale. apply Rmult_le_pos; [|apply pow_psd; assumption].
      left. apply Rinv_0_lt_compat, INR_fact_lt_0.
    + intros i j Hi Hj. unfold exp_part. rewrite sumn_shift. simpl (A i j ^ 0). simpl (INR (fact 0)). field.
Qed.
