(** Quadratic programmes as handed to cvxopt: minimise [x'Px/2 + q'x] subject to [Gx <= h], [Ax = b].
    Vectors are index functions; only the first [qp_n] entries matter. *)
From Verif Require Import RBase.
Open Scope R_scope.

Definition vec := nat -> R.
Definition mat := nat -> nat -> R.

Definition dot (n : nat) (u v : vec) : R := sumn n (fun i => u i * v i).
Definition quad (n : nat) (P : mat) (x : vec) : R := sumn n (fun i => sumn n (fun j => P i j * x i * x j)).
Definition mv (n : nat) (A : mat) (x : vec) : vec := fun i => dot n (A i) x.

Record qp := mkQP {
  qp_n : nat; qp_P : mat; qp_q : vec;
  qp_ineq : list (vec * R); qp_eq : list (vec * R) }.

Definition qp_obj (p : qp) (x : vec) : R := quad (qp_n p) (qp_P p) x / 2 + dot (qp_n p) (qp_q p) x.

Definition qp_feasible (p : qp) (x : vec) : Prop :=
  (forall g h, In (g, h) (qp_ineq p) -> dot (qp_n p) g x <= h) /\
  (forall a b, In (a, b) (qp_eq p) -> dot (qp_n p) a x = b).

Definition qp_optimum (p : qp) (x : vec) : Prop :=
  qp_feasible p x /\ forall y, qp_feasible p y -> qp_obj p x <= qp_obj p y.

(** ** Algebra *)
Lemma dot_ext n u v u' v' : (forall i, (i < n)%nat -> u i = u' i) -> (forall i, (i < n)%nat -> v i = v' i) -> dot n u v = dot n u' v'.
Proof. intros H1 H2. apply sumn_ext. intros i Hi. rewrite H1, H2 by auto. reflexivity. Qed.
Lemma dot_comm n u v : dot n u v = dot n v u.
Proof. apply sumn_ext. intros; ring. Qed.
Lemma dot_plus_r n u v w : dot n u (fun i => v i + w i) = dot n u v + dot n u w.
Proof. unfold dot. rewrite <- sumn_plus. apply sumn_ext; intros; ring. Qed.
Lemma dot_minus_r n u v w : dot n u (fun i => v i - w i) = dot n u v - dot n u w.
Proof. unfold dot. rewrite <- sumn_minus. apply sumn_ext; intros; ring. Qed.
Lemma dot_scale_r n u k v : dot n u (fun i => k * v i) = k * dot n u v.
Proof. unfold dot. rewrite <- sumn_scale. apply sumn_ext; intros; ring. Qed.
Lemma dot_plus_l n u v w : dot n (fun i => u i + v i) w = dot n u w + dot n v w.
Proof. rewrite dot_comm, dot_plus_r, !(dot_comm n w). reflexivity. Qed.
Lemma dot_scale_l n k u v : dot n (fun i => k * u i) v = k * dot n u v.
Proof. rewrite dot_comm, dot_scale_r, (dot_comm n v). reflexivity. Qed.
Lemma dot_zero_l n v : dot n (fun _ => 0) v = 0.
Proof. apply sumn_0. intros; ring. Qed.
Lemma dot_self_nonneg n u : 0 <= dot n u u.
Proof. apply sumn_nonneg. intros. nra. Qed.
Lemma dot_delta n k v : (k < n)%nat -> dot n (fun i => delta i k) v = v k.
Proof. intros. unfold dot. apply sumn_delta. auto. Qed.
Lemma dot_delta_l n k v : (k < n)%nat -> dot n (delta k) v = v k.
Proof. intros. unfold dot. apply sumn_delta_r. auto. Qed.

Lemma quad_mv n P x : quad n P x = dot n x (mv n P x).
Proof.
  unfold quad, mv, dot. apply sumn_ext. intros i Hi. rewrite <- sumn_scale. apply sumn_ext. intros; ring.
Qed.

Lemma quad_ext n P Q x y : (forall i j, (i < n)%nat -> (j < n)%nat -> P i j = Q i j) -> (forall i, (i < n)%nat -> x i = y i) -> quad n P x = quad n Q y.
Proof. intros H1 H2. apply sumn_ext. intros i Hi. apply sumn_ext. intros j Hj. rewrite H1, !H2 by auto. reflexivity. Qed.

Lemma quad_scale n k P x : quad n (fun i j => k * P i j) x = k * quad n P x.
Proof.
  unfold quad. rewrite <- sumn_scale. apply sumn_ext. intros i Hi. rewrite <- sumn_scale. apply sumn_ext. intros; ring.
Qed.

Lemma quad_plus n P Q x : quad n (fun i j => P i j + Q i j) x = quad n P x + quad n Q x.
Proof.
  unfold quad. rewrite <- sumn_plus. apply sumn_ext. intros i Hi. rewrite <- sumn_plus. apply sumn_ext. intros; ring.
Qed.

Lemma quad_vec_scale n P k x : quad n P (fun i => k * x i) = k * k * quad n P x.
Proof.
  unfold quad. rewrite <- sumn_scale. apply sumn_ext. intros i Hi. rewrite <- sumn_scale. apply sumn_ext. intros; ring.
Qed.

(** Quadratic form of a Gram matrix [B B']. *)
Lemma quad_gram n m (B : nat -> nat -> R) x :
  quad n (fun i j => sumn m (fun t => B i t * B j t)) x =
  sumn m (fun t => let s := sumn n (fun i => B i t * x i) in s * s).
Proof.
  transitivity (sumn n (fun i => sumn n (fun j => sumn m (fun t => (B i t * x i) * (B j t * x j))))).
  - apply sumn_ext. intros i Hi. apply sumn_ext. intros j Hj. rewrite <- sumn_scale_r, <- sumn_scale_r. apply sumn_ext. intros; ring.
  - transitivity (sumn n (fun i => sumn m (fun t => B i t * x i * sumn n (fun j => B j t * x j)))).
    + apply sumn_ext. intros i Hi. rewrite sumn_swap. apply sumn_ext. intros t Ht. rewrite <- sumn_scale. reflexivity.
    + rewrite sumn_swap. apply sumn_ext. intros t Ht. cbv zeta. rewrite sumn_scale_r. reflexivity.
Qed.

Definition psd (n : nat) (P : mat) : Prop := forall x, 0 <= quad n P x.
Definition symmetric (n : nat) (P : mat) : Prop := forall i j, (i < n)%nat -> (j < n)%nat -> P i j = P j i.

Lemma gram_psd n m (B : nat -> nat -> R) : psd n (fun i j => sumn m (fun t => B i t * B j t)).
Proof. intros x. rewrite quad_gram. apply sumn_nonneg. intros. cbv zeta. nra. Qed.

Lemma psd_plus n P Q : psd n P -> psd n Q -> psd n (fun i j => P i j + Q i j).
Proof. intros H1 H2 x. rewrite quad_plus. specialize (H1 x). specialize (H2 x). lra. Qed.
Lemma psd_scale n k P : 0 <= k -> psd n P -> psd n (fun i j => k * P i j).
Proof. intros H1 H2 x. rewrite quad_scale. specialize (H2 x). nra. Qed.
