(** Specification vocabulary for the Bayesian posterior. *)
From Verif Require Import RBase QpBase OptSpec NiwModel.
Open Scope R_scope.
Open Scope list_scope.

(** Rows [a .. a+n-1] of the data [X]: their mean and their (maximum likelihood) covariance. *)
Definition data_mean (X : mat) (a n : nat) : vec := fun i => sumn n (fun t => X (a + t)%nat i) / INR n.
Definition data_scatter (X : mat) (a n : nat) : mat :=
  fun i j => sumn n (fun t => (X (a + t)%nat i - data_mean X a n i) * (X (a + t)%nat j - data_mean X a n j)).
Definition data_cov (X : mat) (a n : nat) : mat := fun i j => data_scatter X a n i j / INR n.
(** The unbiased covariance (divide by n - 1). *)
Definition data_cov_unbiased (X : mat) (a n : nat) : mat := fun i j => data_scatter X a n i j / (INR n - 1).

(** [quad] at least [- eps |x|^2]. *)
Definition nearly_psd (n : nat) (M : mat) (eps : R) : Prop := forall x, - eps * dot n x x <= quad n M x.

(** Covariance matrices of the ellipsoid with centre [C], scatter factor [L] ([Sigma_1 = L L']) and
    radius [r]: [C + L V L'] for symmetric [V] of Frobenius norm at most [r], that is
    [tr ((Sigma_1^-1 (S - C))^2) <= r^2]. *)
Definition frobenius_sq (n : nat) (V : mat) : R := sumn n (fun i => sumn n (fun j => V i j * V i j)).
Definition in_cov_ellipsoid (n : nat) (C L : mat) (r : R) (M : mat) : Prop :=
  exists V, symmetric n V /\ frobenius_sq n V <= r * r /\
    forall i j, (i < n)%nat -> (j < n)%nat -> M i j = C i j + mmul n L (mmul n V (transpose L)) i j.
Definition worst_variance n C L r w v : Prop :=
  (forall M, in_cov_ellipsoid n C L r M -> quad n M w <= v) /\
  exists M, in_cov_ellipsoid n C L r M /\ quad n M w = v.

(** ** Feeding data in batches *)
(** A matrix labelled like the vector. *)
Definition sq (lab : option (list string)) : option (list string * list string) := match lab with Some l => Some (l, l) | None => None end.

Definition total (l : list nat) : nat := fold_right Nat.add 0%nat l.

(** A client that feeds the batches one after the other, each posterior being the next prior. *)
Fixpoint absorb chol (lab : option (list string)) (N : nat) (mu : vec) (C : mat) (t nu : R) (X : mat) (a : nat) (sizes : list nat) : res params :=
  match sizes with
  | [] => Ok (Params t (lab, mu) nu (lab, C))
  | n :: rest =>
      let* o := niw_init chol (VIn lab 1 N mu) (MIn (sq lab) 2 N N C) t nu in
      let* (_, p) := niw_update chol o (VIn lab 1 N (data_mean X a n)) (MIn (sq lab) 2 N N (data_cov X a n)) (INR n) in
      absorb chol lab N (snd (mu1 p)) (snd (sigma1 p)) (T1 p) (nu1 p) X (a + n) rest
  end.

(** Posteriors that agree on every count, mean entry and scale entry. *)
Definition same_posterior (N : nat) (p q : params) : Prop :=
  T1 p = T1 q /\ nu1 p = nu1 q /\ fst (mu1 p) = fst (mu1 q) /\ fst (sigma1 p) = fst (sigma1 q) /\
  (forall i, (i < N)%nat -> snd (mu1 p) i = snd (mu1 q) i) /\
  (forall i j, (i < N)%nat -> (j < N)%nat -> snd (sigma1 p) i j = snd (sigma1 q) i j).
