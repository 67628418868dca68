(** Arrays a relaxed risk parity optimiser accepts. *)
From Verif Require Import RBase QpBase OptModel ProjModel RxModel.
Open Scope R_scope.
Open Scope list_scope.

(** The argument describes a matrix with [m] rows and [n] columns. *)
Definition matrix_shape (x : cvx_arg) (m n : nat) : Prop :=
  match x with
  | Array a => r_shape a = [m; n] \/ (r_shape a = [m] /\ n = 1%nat)
  | Numbers l => List.length l = m /\ n = 1%nat
  | Nested [] => m = 0%nat /\ n = 1%nat
  | Nested ls => List.length ls = n /\ forall l, In l ls -> List.length l = m
  end.
(** The argument holds [m] numbers in all (a missing one counts as a single number). *)
Definition holds (o : option cvx_arg) (m : nat) : Prop :=
  match o with None => m = 1%nat | Some x => exists r c, matrix_shape x r c /\ m = (r * c)%nat end.
Definition pair_shape (n : nat) (M v : option cvx_arg) : Prop :=
  match M with None => True | Some x => exists m, matrix_shape x m n /\ holds v m end.
Definition well_shaped (a : rrp_args) : Prop := exists n,
  r_shape (x_cov a) = [n; n] /\ r_size (x_mean a) = n /\ (List.length (r_shape (x_mean a)) <= 1)%nat /\
  pair_shape n (x_G a) (x_h a) /\ pair_shape n (x_A a) (x_b a) /\
  forall l, x_budgets a = Some l -> List.length l = n /\ forall x, In x l -> 0 < x.

(** A numpy matrix of [m] rows and [n] columns with its right-hand side. *)
Definition array_pair (n : nat) (M v : option cvx_arg) (g h : rnd) (m : nat) : Prop :=
  M = Some (Array g) /\ v = Some (Array h) /\ r_shape g = [m; n] /\ (r_shape h = [m] \/ r_shape h = [m; 1%nat]).
(** Row [i] of the array times the weights. *)
Definition row_value (n : nat) (g : rnd) (i : nat) (w : vec) : R := sumn n (fun j => r_at g (i * n + j)%nat * w j).
Definition array_rows (m n : nat) (g h : rnd) : rows :=
  map (fun i => ((fun j => r_at g (i * n + j)%nat), r_at h i)) (seq 0 m).
(** The rows that numpy arguments stand for; a right-hand side without a matrix stands for none. *)
Definition array_rows_of (n : nat) (M v : option cvx_arg) (rs : option rows) : Prop :=
  (M = None /\ (v = None \/ exists x r c, v = Some x /\ matrix_shape x r c) /\ rs = None) \/
  (exists g h m, array_pair n M v g h m /\ rs = Some (array_rows m n g h)).
