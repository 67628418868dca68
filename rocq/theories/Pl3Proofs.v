(** Principal directions, ellipsoids and shares. *)
From Coq Require Import List ZArith Lia Lra Permutation Psatz.
Import ListNotations.
From Verif Require Import Err RBase SortLib QpBase OptProofs3 MomModel GlModel GlSpec PoProofs EigLib Pl3Model Pl3Spec.
Open Scope R_scope.
Open Scope list_scope.

Section Eig.
Variables (n : nat) (K : mat) (d : vec) (Q : mat).
Hypothesis D : eigen_decomposition n K d Q.
Let col (k : nat) : vec := fun i => Q i k.

Lemma eig_quad w : quad n K w = sumn n (fun k => d k * (dot n (col k) w * dot n (col k) w)).
Proof.
  destruct D as [_ D2]. unfold quad. transitivity (sumn n (fun i => sumn n (fun j => sumn n (fun k => (Q i k * w i) * (Q j k * w j) * d k)))).
  - apply sumn_ext. intros i Hi. apply sumn_ext. intros j Hj. rewrite D2 by assumption. rewrite Rmult_assoc, (Rmult_comm _ (w i * w j)), <- sumn_scale. apply sumn_ext. intros; ring.
  - transitivity (sumn n (fun i => sumn n (fun k => sumn n (fun j => (Q i k * w i) * (Q j k * w j) * d k)))); [apply sumn_ext; intros; apply sumn_swap|].
    rewrite sumn_swap. apply sumn_ext. intros k Hk. unfold dot, col.
    transitivity (sumn n (fun i => (Q i k * w i) * (d k * sumn n (fun j => Q j k * w j)))).
    + apply sumn_ext. intros i Hi. rewrite <- !sumn_scale. apply sumn_ext. intros; ring.
    + rewrite sumn_scale_r. ring.
Qed.
Lemma eig_norm w : dot n w w = sumn n (fun k => dot n (col k) w * dot n (col k) w).
Proof.
  destruct D as [D1 _]. assert (O : orthonormal n n col) by (intros i j Hi Hj; apply D1; assumption). pose proof (complete n col O) as C.
  symmetry. unfold dot.
  transitivity (sumn n (fun k => sumn n (fun i => sumn n (fun j => w i * w j * (Q i k * Q j k))))).
  - apply sumn_ext. intros k Hk. rewrite <- sumn_scale_r. apply sumn_ext. intros i Hi. rewrite <- sumn_scale. apply sumn_ext. intros; unfold col; ring.
  - rewrite sumn_swap. apply sumn_ext. intros i Hi. rewrite sumn_swap. transitivity (sumn n (fun j => delta i j * (w i * w j))).
    + apply sumn_ext. intros j Hj. rewrite sumn_scale. change (sumn n (fun k => Q i k * Q j k)) with (sumn n (fun k => col k i * col k j)). rewrite (C i j Hi Hj). ring.
    + exact (dot_delta_l n i (fun j => w i * w j) Hi).
Qed.
Lemma eig_vec k i : (k < n)%nat -> (i < n)%nat -> mv n K (col k) i = d k * Q i k.
Proof.
  destruct D as [D1 D2]. intros Hk Hi. unfold mv, dot. transitivity (sumn n (fun j => sumn n (fun m => (Q i m * d m) * (Q j m * Q j k)))).
  - apply sumn_ext. intros j Hj. rewrite D2 by assumption. rewrite <- sumn_scale_r. apply sumn_ext. intros; unfold col; ring.
  - rewrite sumn_swap. transitivity (sumn n (fun m => delta k m * (Q i m * d m))).
    + apply sumn_ext. intros m Hm. rewrite sumn_scale, D1 by assumption. rewrite (delta_sym m k). ring.
    + etransitivity; [exact (dot_delta_l n k (fun m => Q i m * d m) Hk)|ring].
Qed.
Lemma eig_form f g : (f < n)%nat -> (g < n)%nat -> sumn n (fun i => sumn n (fun j => Q i f * K i j * Q j g)) = delta f g * d f.
Proof.
  intros Hf Hg. transitivity (sumn n (fun i => Q i f * (d g * Q i g))).
  - apply sumn_ext. intros i Hi. rewrite <- (eig_vec g i Hg Hi). unfold mv, dot. rewrite <- sumn_scale. apply sumn_ext. intros; unfold col; ring.
  - transitivity (d g * sumn n (fun i => Q i f * Q i g)); [rewrite <- sumn_scale; apply sumn_ext; intros; ring|].
    destruct D as [D1 _]. rewrite D1 by assumption. unfold delta. destruct (Nat.eqb_spec f g) as [-> | ]; ring.
Qed.
Lemma eig_max (Hs : forall a b, (a <= b)%nat -> (b < n)%nat -> d b <= d a) f w : (f < n)%nat -> dot n w w = 1 ->
  (forall g, (g < f)%nat -> dot n w (col g) = 0) -> quad n K w <= d f.
Proof.
  intros Hf U O. rewrite eig_quad. rewrite eig_norm in U. replace (d f) with (d f * sumn n (fun k => dot n (col k) w * dot n (col k) w)) by (rewrite U; ring).
  rewrite <- sumn_scale. apply sumn_le. intros k Hk. destruct (Nat.lt_ge_cases k f) as [L|L].
  - rewrite (dot_comm n (col k) w), (O k L). lra.
  - apply Rmult_le_compat_r; [apply Rle_0_sqr|]. apply Hs; lia.
Qed.
Lemma eig_psd k : psd n K -> (k < n)%nat -> 0 <= d k.
Proof.
  intros P Hk. specialize (P (col k)). rewrite quad_mv in P. rewrite (dot_ext n (col k) (mv n K (col k)) (col k) (fun i => d k * col k i)) in P; auto.
  - rewrite dot_scale_r in P. destruct D as [D1 _]. specialize (D1 k k Hk Hk). rewrite delta_refl in D1. unfold dot in P. unfold col in P. rewrite D1 in P. lra.
  - intros i Hi. apply eig_vec; assumption.
Qed.
Lemma eig_trace : sumn n (fun i => K i i) = sumn n d.
Proof.
  destruct D as [D1 D2]. transitivity (sumn n (fun i => sumn n (fun k => d k * (Q i k * Q i k)))).
  - apply sumn_ext. intros i Hi. rewrite D2 by assumption. apply sumn_ext. intros; ring.
  - rewrite sumn_swap. apply sumn_ext. intros k Hk. rewrite sumn_scale, D1, delta_refl by assumption. ring.
Qed.
End Eig.
