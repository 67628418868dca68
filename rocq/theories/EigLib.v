(** The spectral theorem for real symmetric matrices: an orthonormal basis of eigenvectors, built one
    eigenvector at a time by minimising the quadratic form over the unit sphere of the orthogonal
    complement of the vectors found so far ([ExistLib.attains]). *)
From Coq Require Import ClassicalEpsilon Lia Lra.
From Verif Require Import RBase QpBase ExistLib.
Open Scope R_scope.

Definition orthonormal (n k : nat) (q : nat -> vec) : Prop :=
  forall i j, (i < k)%nat -> (j < k)%nat -> dot n (q i) (q j) = delta i j.

Definition residual (n k : nat) (q : nat -> vec) (x : vec) : vec := fun a => x a - sumn k (fun i => dot n x (q i) * q i a).

Lemma delta_refl i : delta i i = 1.
Proof. unfold delta. rewrite Nat.eqb_refl. reflexivity. Qed.
Lemma delta_sym i j : delta i j = delta j i.
Proof. unfold delta. rewrite Nat.eqb_sym. reflexivity. Qed.
Lemma dot_sumn_r n k u (f : nat -> vec) : dot n u (fun a => sumn k (fun i => f i a)) = sumn k (fun i => dot n u (f i)).
Proof.
  unfold dot. rewrite sumn_swap. apply sumn_ext. intros a _. rewrite <- sumn_scale. reflexivity.
Qed.
Lemma dot_minus_l n u v w : dot n (fun i => u i - v i) w = dot n u w - dot n v w.
Proof. rewrite dot_comm, dot_minus_r, (dot_comm n w u), (dot_comm n w v). reflexivity. Qed.

Lemma residual_orth n k q x j : orthonormal n k q -> (j < k)%nat -> dot n (residual n k q x) (q j) = 0.
Proof.
  intros H Hj. unfold residual. rewrite dot_minus_l, (dot_comm n (fun a => sumn k _) (q j)), dot_sumn_r.
  rewrite (sumn_ext k _ (fun i => delta i j * dot n x (q i))).
  2: { intros i Hi. rewrite dot_scale_r, H; [|lia..]. rewrite delta_sym. ring. }
  rewrite sumn_delta; [ring|exact Hj].
Qed.
Lemma residual_norm n k q x : orthonormal n k q ->
  dot n (residual n k q x) (residual n k q x) = dot n x x - sumn k (fun i => dot n x (q i) * dot n x (q i)).
Proof.
  intros H. unfold residual at 2. rewrite dot_minus_r, dot_sumn_r.
  rewrite (sumn_0 k (fun i => dot n (residual n k q x) _)).
  2: { intros i Hi. rewrite dot_scale_r, residual_orth by assumption. ring. }
  unfold residual. rewrite dot_minus_l, (dot_comm n (fun a => sumn k _) x), dot_sumn_r.
  rewrite (sumn_ext k (fun i => dot n x (fun a => dot n x (q i) * q i a)) (fun i => dot n x (q i) * dot n x (q i))); [ring|].
  intros i _. rewrite dot_scale_r. reflexivity.
Qed.

(** Summing over the standard basis. *)
Lemma residual_total n k q : orthonormal n k q ->
  sumn n (fun a => dot n (residual n k q (delta a)) (residual n k q (delta a))) = INR n - INR k.
Proof.
  intros H. rewrite (sumn_ext n _ (fun a => 1 - sumn k (fun i => q i a * q i a))).
  2: { intros a Ha. rewrite residual_norm by exact H. rewrite dot_delta_l by exact Ha. rewrite delta_refl. f_equal.
       apply sumn_ext. intros i _. rewrite dot_delta_l by exact Ha. reflexivity. }
  rewrite sumn_minus, sumn_const, sumn_swap. rewrite (sumn_ext k _ (fun _ => 1)).
  2: { intros i Hi. change (sumn n (fun a => q i a * q i a)) with (dot n (q i) (q i)). rewrite H, delta_refl by lia. reflexivity. }
  rewrite sumn_const. ring.
Qed.

Lemma dot_self_zero n x : dot n x x = 0 -> forall i, (i < n)%nat -> x i = 0.
Proof.
  intros H i Hi. pose proof (sumn_nonneg_zero n (fun i => x i * x i) (fun i _ => Rle_0_sqr (x i)) H i Hi) as Z. cbv beta in Z. nra.
Qed.
Lemma dot_self_pos n x i : (i < n)%nat -> x i <> 0 -> 0 < dot n x x.
Proof.
  intros Hi Hx. destruct (Rle_lt_or_eq_dec _ _ (dot_self_nonneg n x)) as [H|H]; [exact H|]. exfalso. apply Hx. apply (dot_self_zero n); auto.
Qed.

(** Fewer than [n] orthonormal vectors leave a unit vector orthogonal to all of them. *)
Lemma room n k q : orthonormal n k q -> (k < n)%nat -> exists x, dot n x x = 1 /\ forall i, (i < k)%nat -> dot n x (q i) = 0.
Proof.
  intros H Hk. destruct (classic (exists a, (a < n)%nat /\ 0 < dot n (residual n k q (delta a)) (residual n k q (delta a)))) as [(a & Ha & P)|N].
  - set (r := residual n k q (delta a)) in *. exists (fun i => / sqrt (dot n r r) * r i). split.
    + rewrite dot_scale_l, dot_scale_r. rewrite <- Rmult_assoc, <- Rinv_mult, sqrt_sqrt by lra. field. lra.
    + intros i Hi. rewrite dot_scale_l. unfold r. rewrite residual_orth by assumption. ring.
  - exfalso. pose proof (residual_total n k q H) as E. assert (Z : sumn n (fun a => dot n (residual n k q (delta a)) (residual n k q (delta a))) = 0).
    { apply sumn_0. intros a Ha. apply Rle_antisym; [|apply dot_self_nonneg]. apply Rnot_lt_le. intros P. apply N. eauto. }
    rewrite Z in E. apply lt_INR in Hk. lra.
Qed.

(** [n] orthonormal vectors of [R^n] are complete. *)
Lemma complete n q : orthonormal n n q -> forall a b, (a < n)%nat -> (b < n)%nat -> sumn n (fun i => q i a * q i b) = delta a b.
Proof.
  intros H a b Ha Hb. pose proof (residual_total n n q H) as E. rewrite Rminus_diag_eq in E by reflexivity.
  pose proof (sumn_nonneg_zero n _ (fun a _ => dot_self_nonneg n (residual n n q (delta a))) E a Ha) as Z.
  pose proof (dot_self_zero _ _ Z b Hb) as Y. unfold residual in Y.
  rewrite (sumn_ext n _ (fun i => q i a * q i b)) in Y; [lra|]. intros i _. rewrite dot_delta_l by exact Ha. reflexivity.
Qed.

Lemma mv_sym_dot n A x y : symmetric n A -> dot n x (mv n A y) = dot n y (mv n A x).
Proof.
  intros H. unfold mv, dot. rewrite (sumn_ext n _ (fun i => sumn n (fun j => x i * (A i j * y j)))) by (intros; rewrite sumn_scale; reflexivity).
  rewrite sumn_swap. apply sumn_ext. intros j Hj. rewrite <- sumn_scale. apply sumn_ext. intros i Hi. rewrite (H i j) by auto. ring.
Qed.
Lemma mv_lin n A x y s i : mv n A (fun a => x a + s * y a) i = mv n A x i + s * mv n A y i.
Proof. unfold mv. rewrite dot_plus_r, dot_scale_r. reflexivity. Qed.

Definition eigenvector (n : nat) (A : mat) (d : R) (x : vec) : Prop := forall i, (i < n)%nat -> mv n A x i = d * x i.

(** A non-negative quadratic [c + 2 s b + s^2 a] with [c = 0] has [b = 0]. *)
Lemma flat_quadratic b a : (forall s, 0 <= 2 * s * b + s * s * a) -> b = 0.
Proof.
  intros H. destruct (Req_dec b 0) as [|N]; [assumption|]. exfalso.
  destruct (Rle_or_lt a 0) as [Ha|Ha].
  - specialize (H (- b)). nra.
  - specialize (H (- b / a)). assert (E : 2 * (- b / a) * b + - b / a * (- b / a) * a = - (b * b / a)) by (field; lra).
    rewrite E in H. assert (0 < b * b / a) by (apply Rdiv_lt_0_compat; [nra|exact Ha]). lra.
Qed.

Lemma next_eigenvector n A k q d : symmetric n A -> (k < n)%nat -> orthonormal n k q ->
  (forall i, (i < k)%nat -> eigenvector n A (d i) (q i)) ->
  exists l x, dot n x x = 1 /\ (forall i, (i < k)%nat -> dot n x (q i) = 0) /\ eigenvector n A l x.
Proof.
  intros HA Hk HO HE.
  set (F := fun x => dot n x x = 1 /\ forall i, (i < k)%nat -> dot n x (q i) = 0).
  assert (HF : closed n F).
  { intros u x Hu Hc. split.
    - apply (cv_eq_const (fun j => quad n delta (u j)) _ 1).
      + replace (dot n x x) with (quad n delta x); [apply cv_quad; exact Hc|].
        rewrite quad_mv. apply dot_ext; [auto|]. intros i Hi. unfold mv. apply dot_delta_l. exact Hi.
      + intros j. rewrite <- (proj1 (Hu j)). rewrite quad_mv. apply dot_ext; [auto|]. intros i Hi. unfold mv. apply dot_delta_l. exact Hi.
    - intros i Hi. rewrite dot_comm. apply (cv_eq_const (fun j => dot n (q i) (u j)) _ 0); [apply cv_dot; exact Hc|].
      intros j. rewrite dot_comm. apply Hu. exact Hi. }
  destruct (attains n 1 F (quad n A) HF) as (x & [Hx1 Hx2] & Hmin).
  { intros u x Hc. apply cv_quad. exact Hc. }
  { destruct (room n k q HO Hk) as (x & Hx). exists x. exact Hx. }
  { intros x [H1 H2]. exists x. split; [split; assumption|]. split; [lra|]. intros i Hi.
    assert (x i * x i <= 1).
    { rewrite <- H1. unfold dot. rewrite <- (sumn_delta n i (fun i => x i * x i) Hi). apply sumn_le. intros j _. unfold delta.
      destruct (j =? i)%nat; pose proof (Rle_0_sqr (x j)); unfold Rsqr in *; lra. }
    apply Rabs_le. nra. }
  set (l := quad n A x) in *.
  (* on the complement, y'Ay >= l |y|^2 *)
  assert (Hray : forall y, (forall i, (i < k)%nat -> dot n y (q i) = 0) -> l * dot n y y <= quad n A y).
  { intros y Hy. destruct (Rle_lt_or_eq_dec _ _ (dot_self_nonneg n y)) as [P|Z].
    - specialize (Hmin (fun i => / sqrt (dot n y y) * y i)). rewrite quad_vec_scale in Hmin.
      rewrite <- Rinv_mult, sqrt_sqrt in Hmin by lra.
      assert (l <= / dot n y y * quad n A y).
      { apply Hmin. split.
        - rewrite dot_scale_l, dot_scale_r. rewrite <- Rmult_assoc, <- Rinv_mult, sqrt_sqrt by lra. field. lra.
        - intros i Hi. rewrite dot_scale_l, Hy by exact Hi. ring. }
      apply (Rmult_le_compat_r (dot n y y)) in H; [|lra]. replace (/ dot n y y * quad n A y * dot n y y) with (quad n A y) in H by (field; lra). exact H.
    - rewrite <- Z. replace (quad n A y) with 0; [lra|]. symmetry. rewrite quad_mv. unfold dot. apply sumn_0. intros i Hi.
      rewrite (dot_self_zero n y) by auto. ring. }
  (* the first-order condition *)
  assert (Hfo : forall y, (forall i, (i < k)%nat -> dot n y (q i) = 0) -> dot n y (mv n A x) - l * dot n y x = 0).
  { intros y Hy. apply (flat_quadratic _ (quad n A y - l * dot n y y)). intros s.
    pose proof (Hray (fun a => x a + s * y a)) as R1.
    assert (R2 : forall i, (i < k)%nat -> dot n (fun a => x a + s * y a) (q i) = 0).
    { intros i Hi. rewrite dot_plus_l, dot_scale_l, Hx2, Hy by exact Hi. ring. }
    specialize (R1 R2). rewrite dot_plus_l, !dot_plus_r, !dot_scale_l, !dot_scale_r, Hx1 in R1.
    rewrite quad_mv in R1. rewrite (dot_ext n _ (mv n A _) (fun a => x a + s * y a) (fun i => mv n A x i + s * mv n A y i)) in R1
      by (intros; auto using mv_lin). rewrite dot_plus_l, !dot_plus_r, !dot_scale_l, !dot_scale_r in R1.
    rewrite (mv_sym_dot n A x y HA) in R1. rewrite <- !quad_mv in R1. fold l in R1. rewrite (dot_comm n x y) in R1. nra. }
  exists l, x. split; [exact Hx1|]. split; [exact Hx2|].
  set (g := fun i => mv n A x i - l * x i).
  assert (Hg : forall i, (i < k)%nat -> dot n g (q i) = 0).
  { intros i Hi. unfold g. rewrite dot_minus_l, dot_scale_l, Hx2 by exact Hi. rewrite dot_comm, mv_sym_dot by exact HA.
    rewrite (dot_ext n x (mv n A (q i)) x (fun a => d i * q i a)) by (auto; intros; apply HE; auto). rewrite dot_scale_r, Hx2 by exact Hi. ring. }
  pose proof (Hfo g Hg) as Z. rewrite <- dot_scale_r, <- dot_minus_r in Z. fold g in Z.
  intros i Hi. pose proof (dot_self_zero n g Z i Hi) as Y. unfold g in Y. lra.
Qed.

Lemma eigenvectors n A : symmetric n A -> forall k, (k <= n)%nat ->
  exists d q, orthonormal n k q /\ forall i, (i < k)%nat -> eigenvector n A (d i) (q i).
Proof.
  intros HA. induction k as [|k IH]; intros Hk.
  - exists (fun _ => 0), (fun _ _ => 0). split; [intros i j Hi; lia|intros i Hi; lia].
  - destruct IH as (d & q & HO & HE); [lia|]. destruct (next_eigenvector n A k q d HA) as (l & x & X1 & X2 & X3); [lia|assumption..|].
    exists (fun i => if (i =? k)%nat then l else d i), (fun i => if (i =? k)%nat then x else q i). split.
    + intros i j Hi Hj. cbv beta. destruct (Nat.eqb_spec i k) as [->|Ni], (Nat.eqb_spec j k) as [->|Nj].
      * rewrite X1, delta_refl. reflexivity.
      * rewrite X2 by lia. unfold delta. destruct (Nat.eqb_spec k j); [lia|reflexivity].
      * rewrite dot_comm, X2 by lia. unfold delta. destruct (Nat.eqb_spec i k); [lia|reflexivity].
      * apply HO; lia.
    + intros i Hi. cbv beta. destruct (Nat.eqb_spec i k) as [->|Ni]; [exact X3|apply HE; lia].
Qed.

(** Eigenvalues [d] and orthonormal eigenvectors as the columns of [Q]. *)
Theorem spectral n A : symmetric n A -> exists d (Q : mat),
  (forall i j, (i < n)%nat -> (j < n)%nat -> sumn n (fun k => Q k i * Q k j) = delta i j) /\
  (forall i j, (i < n)%nat -> (j < n)%nat -> A i j = sumn n (fun k => Q i k * d k * Q j k)).
Proof.
  intros HA. destruct (eigenvectors n A HA n (le_n n)) as (d & q & HO & HE). exists d, (fun a k => q k a). split.
  - intros i j Hi Hj. exact (HO i j Hi Hj).
  - intros i j Hi Hj. rewrite (sumn_ext n _ (fun k => mv n A (q k) i * q k j)).
    2: { intros k Hk. rewrite (HE k Hk i Hi). ring. }
    rewrite (sumn_ext n _ (fun k => sumn n (fun b => A i b * (q k b * q k j)))).
    2: { intros k Hk. unfold mv, dot. rewrite <- sumn_scale_r. apply sumn_ext. intros; ring. }
    rewrite sumn_swap. rewrite (sumn_ext n _ (fun b => delta b j * A i b)).
    2: { intros b Hb. rewrite sumn_scale. rewrite (complete n q HO b j Hb Hj). ring. }
    rewrite sumn_delta by exact Hj. reflexivity.
Qed.
Print Assumptions spectral.
