(** What a graphical-lasso estimate is, and exact linear-algebra routines for it. *)
From Coq Require Import List Lia Lra.
From Verif Require Import Err RBase QpBase MomModel MomSpec GlModel.
From Verif Require ExistSpec.
Open Scope R_scope.

(** [K = Q diag(d) Q'] with orthonormal columns in [Q]. *)
Definition eigen_decomposition (n : nat) (K : mat) (d : vec) (Q : mat) : Prop :=
  (forall i j, (i < n)%nat -> (j < n)%nat -> sumn n (fun k => Q k i * Q k j) = delta i j) /\
  (forall i j, (i < n)%nat -> (j < n)%nat -> K i j = sumn n (fun k => Q i k * d k * Q j k)).

(** Routines that work in exact arithmetic and fail only when there is no answer. *)
Record exact_gl_env (env : gl_env) : Prop := {
  xg_eig : correct_eig (ge_eig env);
  xg_eigh : forall n K, symmetric n K -> exists d Q, ge_eigh env n K = Some (d, Q) /\ eigen_decomposition n K d Q;
  xg_inv : forall n A B, ge_inv env n A = Some B -> is_inverse n A B;
  xg_inv_total : forall n A B, is_inverse n A B -> ge_inv env n A <> None }.

(** The stationarity conditions of
      minimise  - log det P + trace(S P) + alpha * sum of |P i j| over i <> j,
    that is [inverse(P) = S + alpha * G] with [G] a subgradient of the off-diagonal l1 norm at [P]. *)
Record glasso_solution (n : nat) (S : mat) (alpha : R) (P W : mat) : Prop := {
  gs_sym : symmetric n P;
  gs_pd : ExistSpec.positive_definite n P;
  gs_inv : is_inverse n P W;
  gs_diag : forall i, (i < n)%nat -> W i i = S i i;
  gs_off : forall i j, (i < n)%nat -> (j < n)%nat -> i <> j -> Rabs (W i j - S i j) <= alpha;
  gs_pos : forall i j, (i < n)%nat -> (j < n)%nat -> i <> j -> 0 < P i j -> W i j = S i j + alpha;
  gs_neg : forall i j, (i < n)%nat -> (j < n)%nat -> i <> j -> P i j < 0 -> W i j = S i j - alpha }.

(** Squared distance between two matrices, entry by entry. *)
Definition dist2 (n : nat) (A B : mat) : R := sumn n (fun i => sumn n (fun j => (A i j - B i j) ^ 2)).

(** Held-out Gaussian score of penalty [a]: fit on the rows outside the fold, score on the rows of
    the fold; fold [f] of [K] holds the rows whose index is [f] modulo [K]. *)
Definition second_moment (rows : list nat) (X : mat) : mat := fun i j =>
  rsum (map (fun t => X t i * X t j) rows) / INR (List.length rows).
Definition in_fold (K f t : nat) : bool := Nat.eqb (t mod K) f.
Definition cv_fold (env : gl_env) (T N K : nat) (X : mat) (a : R) (f : nat) (s : R) : Prop :=
  let tr := filter (fun t => negb (in_fold K f t)) (seq 0 T) in
  let va := filter (in_fold K f) (seq 0 T) in
  tr <> nil /\ va <> nil /\
  exists cov P it, gl_fit env N (second_moment tr X) a = Ok (cov, P, it) /\
    s = ge_logdet env N P - trace N (mmul N (second_moment va X) P).
Definition cv_mean (env : gl_env) (T N : nat) (X : mat) (a m : R) : Prop :=
  exists ss, Forall2 (cv_fold env T N (Nat.min 5 T) X a) (seq 0 (Nat.min 5 T)) ss /\ m = rsum ss / INR (List.length ss).

(** Sample second moment of the returns, about zero when they are taken as already centred. *)
Definition sample_S (T : nat) (R_ : mat) (already_centered : bool) : mat := fun i j =>
  let m := fun i => if already_centered then 0 else sumn T (fun t => R_ t i) / INR T in
  sumn T (fun t => (R_ t i - m i) * (R_ t j - m j)) / INR T.
