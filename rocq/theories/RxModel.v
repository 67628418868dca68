(** Model of [RelaxedRiskParity] called with raw arrays (pyvallocation/optimization.py:241-261, 970-1060, 1223-1261):
    conversion to cvxopt matrices, shape checks, then the cone programme of [OptModel.rrp_solve].  Entries are finite reals. *)
From Verif Require Import RBase QpBase OptModel ProjModel.
Open Scope R_scope.
Open Scope list_scope.

(** A constraint argument: numpy array, list of numbers, or list of lists. *)
Inductive cvx_arg := Array (a : rnd) | Numbers (l : list R) | Nested (ls : list (list R)).

(** cvxopt's [matrix(x)]: one-dimensional data are one column, and the inner lists of a nested list are columns. *)
Definition cvx_matrix (x : cvx_arg) : res (nat * nat * mat) :=
  match x with
  | Array a => match r_shape a with
               | [m] => Ok (m, 1%nat, fun i _ => r_at a i)
               | [m; k] => Ok (m, k, fun i j => r_at a (i * k + j)%nat)
               | _ => Err TypeError
               end
  | Numbers l => Ok (List.length l, 1%nat, fun i _ => nth i l 0)
  | Nested ls => match ls with
                 | [] => Ok (0%nat, 1%nat, (fun _ _ => 0))
                 | c :: _ => guard (forallb (fun d => Nat.eqb (List.length d) (List.length c)) ls) TypeError
                               (Ok (List.length c, List.length ls, fun i j => nth i (nth j ls []) 0))
                 end
  end.

Record rrp_args := RrpArgs {
  x_mean : rnd; x_cov : rnd; x_G : option cvx_arg; x_h : option cvx_arg; x_A : option cvx_arg; x_b : option cvx_arg;
  x_budgets : option (list R) }.

(** optimization.py:256-261. *)
Definition stored (o : option cvx_arg) : res (option (nat * nat * mat)) :=
  match o with None => Ok None | Some x => let* m := cvx_matrix x in Ok (Some m) end.

(** optimization.py:1223-1261 [_extract_user_constraints], for one pair.  [np.asarray(None, dtype=float).ravel()] is
    [[nan]]: a missing right-hand side counts as one entry that is not a number ([None] here). *)
Definition entries (m : option (nat * nat * mat)) : list (option R) :=
  match m with
  | Some (r, c, H) => map (fun k => Some (H (k / c)%nat (k mod c)%nat)) (seq 0 (r * c))
  | None => [None]
  end.
Definition user_rows (n : nat) (M v : option (nat * nat * mat)) : res (option (list (vec * option R))) :=
  match M with
  | None => Ok None
  | Some (r, c, B) =>
      guard (Nat.eqb c n) ValueError
        (guard (Nat.eqb (List.length (entries v)) r) ValueError
           (Ok (Some (map (fun i => (B i, nth i (entries v) None)) (seq 0 r)))))
  end.

(** optimization.py:990-1020 (constructor), then 1035-1050 (first lines of [solve]); non-finite targets are not modelled. *)
Definition checked (chol : nat -> mat -> option mat) (a : rrp_args) (lam : R)
  : res (nat * option (list (vec * option R)) * option (list (vec * option R))) :=
  match r_shape (x_cov a) with
  | [r; c] =>
      guard (Nat.eqb r c) ValueError
        (let* G := stored (x_G a) in
         let* h := stored (x_h a) in
         let* A := stored (x_A a) in
         let* b := stored (x_b a) in
         let n := r_size (x_mean a) in
         guard (Nat.eqb r n) ValueError
           (let* _ := cholesky_pd chol n (symmetrise (fun i j => r_at (x_cov a) (i * n + j)%nat)) in
            guard (Nat.leb (List.length (r_shape (x_mean a))) 1) ValueError
              (let* _ := risk_budgets n (x_budgets a) in
               guard (negb (Rltb lam 0)) ValueError
                 (let* G := user_rows n G h in
                  let* A := user_rows n A b in
                  Ok (n, G, A)))))
  | _ => Err ValueError
  end.

(** The rows if every right-hand side is a number. *)
Fixpoint numbers (l : list (vec * option R)) : option rows :=
  match l with
  | [] => Some []
  | (row, Some x) :: l' => option_map (cons (row, x)) (numbers l')
  | (_, None) :: _ => None
  end.
Definition numeric (o : option (list (vec * option R))) : option (option rows) :=
  match o with None => Some None | Some l => option_map Some (numbers l) end.

(** [RelaxedRiskParity(...).solve(...)].  [None]: the solvers are called with a right-hand side that is not a number. *)
Definition rrp_call (conelp lp : cp -> option vec) (chol : nat -> mat -> option mat) (a : rrp_args) (lam : R)
  (target min_target : option R) : option (res rrp_result) :=
  match checked chol a lam with
  | Err e => Some (Err e)
  | Ok (n, G, A) =>
      match numeric G, numeric A with
      | Some G, Some A =>
          Some (rrp_solve conelp lp chol n (r_at (x_mean a)) (fun i j => r_at (x_cov a) (i * n + j)%nat) G A (x_budgets a) lam target min_target)
      | _, _ => None
      end
  end.
