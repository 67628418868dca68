(** Specification vocabulary for Black-Litterman. *)
From Verif Require Import RBase QpBase OptModel OptSpec ExistSpec NiwModel BlModel.
From Verif Require MomSpec.
Open Scope R_scope.
Open Scope list_scope.

(** [np.linalg.solve]: a result solves the system; a non-singular system is solved. *)
Definition exact_solve (lsolve : nat -> mat -> nat -> mat -> option mat) : Prop :=
  forall k A m B X, lsolve k A m B = Some X -> forall a j, (a < k)%nat -> (j < m)%nat -> mv k A (fun b => X b j) a = B a j.
Definition complete_solve (lsolve : nat -> mat -> nat -> mat -> option mat) : Prop :=
  forall k A m B, (forall x, (forall a, (a < k)%nat -> mv k A x a = 0) -> forall a, (a < k)%nat -> x a = 0) -> lsolve k A m B <> None.

(** The value that view [v] speaks about, under the mean vector [mu]: one asset's mean or a difference. *)
Definition view_value (idx : label -> nat) (k : vkey) (mu : vec) : R :=
  match k with
  | KOne l => mu (idx l)
  | KTup [a; b] => mu (idx a) - mu (idx b)
  | KTup _ => 0
  end.

(** The variance of what the view speaks about. *)
Definition view_variance (idx : label -> nat) (k : vkey) (sigma : mat) : R :=
  match k with
  | KOne l => sigma (idx l) (idx l)
  | KTup [a; b] => sigma (idx a) (idx a) + sigma (idx b) (idx b) - 2 * sigma (idx a) (idx b)
  | KTup _ => 0
  end.
Definition target_of (v : vval) : R := match v with VNum x => x | VSeq (x :: _) => x | VSeq [] => 0 end.
(** The [a]-th view of a dictionary, its target, and by how much the mean vector [mu] misses it. *)
Definition nth_key (d : list (vkey * vval)) (a : nat) : vkey := fst (nth a d (KTup [], VNum 0)).
Definition nth_target (d : list (vkey * vval)) (a : nat) : R := target_of (snd (nth a d (KTup [], VNum 0))).
Definition view_error (idx : label -> nat) (d : list (vkey * vval)) (mu : vec) (a : nat) : R :=
  nth_target d a - view_value idx (nth_key d a) mu.

(** Every view names known assets; a relative view names two different ones. *)
Definition proper_views (assets : list label) (idx : label -> nat) (d : list (vkey * vval)) : Prop :=
  forall k v, In (k, v) d ->
    match k with
    | KOne l => bl_index assets l = Ok (idx l)
    | KTup [a; b] => bl_index assets a = Ok (idx a) /\ bl_index assets b = Ok (idx b) /\ idx a <> idx b
    | KTup _ => False
    end.

(** What the posterior mean trades off: squared distance to the prior mean in units of [tau Sigma], plus
    squared view errors in units of [Omega].  [Si] and [Oi] are the inverses of [Sigma] and [Omega]. *)
Definition bl_loss (n : nat) (Si : mat) (tau : R) (pi : vec) (k : nat) (Oi : mat) (err : vec -> vec) (mu : vec) : R :=
  quad n Si (fun i => mu i - pi i) / tau + quad k Oi (err mu).

(** [M] inverts the information matrix [Sigma^-1/tau + P' Omega^-1 P] of the prior and the views: for every
    [w], solving the normal equations with right-hand side [w] gives [M w].  The rows of [P] are the
    coefficients of [value]. *)
Definition is_information_inverse (n : nat) (Si : mat) (tau : R) (k : nat) (Oi : mat) (coef : nat -> vec) (M : mat) : Prop :=
  forall w i, (i < n)%nat ->
    mv n Si (mv n M w) i / tau + sumn k (fun a => coef a i * mv k Oi (fun b => dot n (coef b) (mv n M w)) a) = w i.

(** Investor's mean-variance utility with risk aversion [delta]. *)
Definition mv_utility (n : nat) (mu : vec) (sigma : mat) (delta : R) (w : vec) : R := dot n w mu - delta / 2 * quad n sigma w.

(** The prior mean a request stands for: [pi], else the equilibrium returns of the market weights, else
    [prior_mean]. *)
Definition prior_mean_of (a : bl_args) : vec :=
  match a_pi a, a_weights a, a_mean a with
  | Some l, _, _ => of_list l
  | None, Some w, _ => fun i => a_delta a * dot (m_rows (a_cov a)) (m_at (a_cov a) i) (fun j => of_list (w_vals w) j / rsum (w_vals w))
  | None, None, Some l => of_list l
  | None, None, None => fun _ => 0
  end.

(** A request over [n] assets with a symmetric covariance [sigma] and the views [d], naming positions by [idx]. *)
Record bl_setting (a : bl_args) (n : nat) (sigma : mat) (d : list (vkey * vval)) (idx : label -> nat) : Prop := {
  st_rows : m_rows (a_cov a) = n;
  st_labels : forall ix cx, m_lab (a_cov a) = Some (ix, cx) -> List.length ix = n;
  st_sigma : m_at (a_cov a) = sigma;
  st_sym : symmetric n sigma;
  st_views : vec_to_dict (bl_assets (a_cov a)) (a_views a) = Ok d;
  st_some : d <> [];
  st_proper : proper_views (bl_assets (a_cov a)) idx d }.

(** A prior mean of the right length was given. *)
Definition prior_given (a : bl_args) (n : nat) : Prop :=
  match a_pi a, a_weights a, a_mean a with
  | Some l, _, _ => List.length l = n
  | None, Some w, _ => List.length (w_vals w) = n
  | None, None, Some l => List.length l = n
  | None, None, None => False
  end.
(** Confidences, if given, match the number of views. *)
Definition conf_shaped (c : conf) (k : nat) : Prop := match c with CArr l => List.length l = k | _ => True end.
(** The view covariance asked for is positive definite. *)
Definition omega_usable (a : bl_args) (idx : label -> nat) (sigma : mat) (d : list (vkey * vval)) : Prop :=
  let k := List.length d in
  let informative := forall v, (v < k)%nat -> 0 < view_variance idx (nth_key d v) sigma in
  match a_omega a with
  | ONone => informative
  | OIdzorek => informative /\ a_conf a <> CNone
  | OStr => False
  | OVec l => List.length l = k /\ forall v, (v < k)%nat -> 0 < nth v l 0
  | OMat r c M => r = k /\ c = k /\ positive_definite k M
  end.
(** Each view has one target. *)
Definition single_targets (d : list (vkey * vval)) : Prop := forall k v, In (k, v) d -> match v with VNum _ => True | VSeq l => List.length l = 1%nat end.
(** The confidence of view [key]: [c], or the entry of the dictionary, or 1. *)
Definition confidence_of (c : conf) (key : vkey) (v : nat) : R :=
  match c with CNone => 1 | CNum x => x | CDict d => match assoc d key with Some x => x | None => 1 end | CArr l => nth v l 0 end.
(** Confidences are moved into [1e-6, 1 - 1e-6]. *)
Definition confidence_used (x : R) : R := Rmin (1 - 1 / 1000000) (Rmax (1 / 1000000) x).
