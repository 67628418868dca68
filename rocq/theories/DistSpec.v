(** What a valid asset distribution is. *)
From Verif Require Import RBase QpBase ConsModel DistModel OptSpec.
Open Scope R_scope.
Open Scope list_scope.

(** An array of real numbers of the given shape with entries [f] (row-major). *)
Definition real_array (a : nd) (shape : list nat) (f : nat -> R) : Prop :=
  nd_shape a = shape /\ forall k, (k < nd_size a)%nat -> nd_at a k = Fin (f k).
Definition has_shape (a : nd) (shape : list nat) : Prop := exists f, real_array a shape f.

(** Row-major position of entry [(i, j)] in a matrix with [n] columns. *)
Definition pos (n i j : nat) : nat := (i * n + j)%nat.

(** What a caller may rely on after construction. *)
Record valid_dist (d : dist) : Prop := {
  vd_N : (0 < d_N d)%nat;
  vd_names : forall l, d_names d = Some l -> List.length l = d_N d;
  vd_mu : forall m, d_mu d = Some m -> has_shape m [d_N d];
  vd_cov : forall c, d_cov d = Some c -> has_shape c [d_N d; d_N d];
  vd_some : d_mu d <> None \/ d_cov d <> None;
  vd_scen : match d_scen d, d_probs d, d_T d with
            | None, None, None => True
            | Some X, Some p, Some T =>
                (0 < T)%nat /\ has_shape X [T; d_N d] /\ d_mu d <> None /\ d_cov d <> None /\
                exists q, real_array p [T] q /\ prob_vec T q
            | _, _, _ => False
            end }.

(** All asset labels supplied, in any form. *)
Definition supplied_labels (i : dist_in) : list (list string) :=
  match i_names i with Some l => [l] | None => [] end ++
  match i_mu i with Some (Some l, _) => [l] | _ => [] end ++
  match i_cov i with Some (Some (r, c), _) => [r; c] | _ => [] end ++
  match i_scen i with Some (Some l, _) => [l] | _ => [] end.

(** pandas guarantees: labels have the length of the axis they label. *)
Definition pandas_ok (i : dist_in) : Prop :=
  match i_mu i with Some (Some l, a) => nd_shape a = [List.length l] | _ => True end /\
  match i_cov i with Some (Some (r, c), a) => nd_shape a = [List.length r; List.length c] | _ => True end /\
  match i_scen i with Some (Some l, a) => exists t, nd_shape a = [t; List.length l] | _ => True end.

(** Usable probabilities for [T] scenarios: absent, or [T] non-negative numbers not all zero. *)
Definition usable_probs (T : nat) (p : option nd) : Prop :=
  match p with
  | None => True
  | Some p => nd_size p = T /\ exists f, (forall k, (k < T)%nat -> nd_at p k = Fin (f k) /\ 0 <= f k) /\ 0 < sumn T f
  end.

(** The inputs that describe one distribution on [N] assets. *)
Definition consistent (N : nat) (i : dist_in) : Prop :=
  (0 < N)%nat /\
  (exists names, List.length names = N /\ forall l, In l (supplied_labels i) -> l = names) /\
  match i_mu i with Some (_, m) => nd_size m = N /\ exists f, forall k, (k < N)%nat -> nd_at m k = Fin (f k) | None => True end /\
  match i_cov i with Some (_, c) => has_shape c [N; N] | None => True end /\
  match i_scen i with
  | Some (_, X) => exists T, (0 < T)%nat /\ has_shape X [T; N] /\ usable_probs T (i_probs i)
  | None => i_mu i <> None \/ i_cov i <> None
  end.

(** Weighted moments of [T] scenarios with entries [x t j]. *)
Definition mean_of (T : nat) (q : nat -> R) (x : nat -> nat -> R) (j : nat) : R := sumn T (fun t => q t * x t j).
Definition cov_of (T : nat) (q : nat -> R) (x : nat -> nat -> R) (i j : nat) : R :=
  sumn T (fun t => q t * ((x t i - mean_of T q x i) * (x t j - mean_of T q x j))).

(** [q] is the caller's weights rescaled to one, or uniform. *)
Definition normalised (T : nat) (p : option nd) (q : nat -> R) : Prop :=
  match p with
  | None => forall t, (t < T)%nat -> q t = 1 / INR T
  | Some p => forall t, (t < T)%nat -> q t = val (nd_at p t) / sumn T (fun u => val (nd_at p u))
  end.

(** Wealth obtained by compounding simple returns [r 0 .. r (t-1)] from [p0]. *)
Fixpoint compound (p0 : R) (r : nat -> R) (t : nat) : R :=
  match t with O => p0 | S t' => compound p0 r t' * (1 + r t') end.

(** A price history: [S T] rows (T >= 1) of [N >= 1] strictly positive finite prices. *)
Definition price_history (a : nd) (T N : nat) (f : nat -> R) : Prop :=
  (0 < T)%nat /\ (0 < N)%nat /\ real_array a [S T; N] f /\ forall k, (k < S T * N)%nat -> 0 < f k.
