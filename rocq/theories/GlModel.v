(** Graphical lasso: pyvallocation/moments.py:776-928.  Reals stand for floats; [nan_to_num]
    (808, 870, ...) is the identity on them. *)
From Coq Require Import List Lia Lra.
Import ListNotations.
From Verif Require Import Err RBase QpBase MomModel.
Open Scope R_scope.
Open Scope list_scope.

(** [np.linalg.eigh]: eigenvalues and the matrix whose columns are eigenvectors; [None] is LinAlgError. *)
Definition eigh_oracle := nat -> mat -> option (vec * mat).

(** moments.py:801-809: the matrix minimising the first ADMM sub-problem. *)
Definition gl_shrink (rho l : R) : R := (l + sqrt (Rmax (l ^ 2 + 4 * rho) 0)) / (2 * rho).
Definition gl_theta (eigh : eigh_oracle) (p : nat) (rho : R) (S Z U : mat) : res mat :=
  match eigh p (fun i j => rho * (Z i j - U i j) - S i j) with
  | None => Err LinAlgError
  | Some (d, Q) => Ok (symmetrise (fun i j => sumn p (fun k => Q i k * gl_shrink rho (d k) * Q j k)))
  end.

(** moments.py:811-817: [Z] from [X = Theta + U], then the new [U]. *)
Record gl_state := mkGl { gl_Th : mat; gl_Z : mat; gl_U : mat }.
Definition gl_step (eigh : eigh_oracle) (p : nat) (rho alpha : R) (S Z U : mat) : res gl_state :=
  let* Th := gl_theta eigh p rho S Z U in
  let X := fun i j => Th i j + U i j in
  let T := soft_threshold X (alpha / rho) in
  let Z' := fun i j => if Nat.eqb i j then X i j else T i j in                  (* 815 *)
  Ok (mkGl Th Z' (fun i j => U i j + Th i j - Z' i j)).

(** moments.py:819-823: the stopping test. *)
Definition fro (p : nat) (A : mat) : R := sqrt (frob2 p A).
Definition gl_eps_pri (p : nat) (tol : R) (st : gl_state) : R :=
  tol * sqrt (INR p) + tol * Rmax (fro p (gl_Th st)) (fro p (gl_Z st)).
Definition gl_eps_dual (p : nat) (tol rho : R) (st : gl_state) : R :=
  tol * sqrt (INR p) + tol * fro p (fun i j => rho * gl_U st i j).
Definition gl_done (p : nat) (tol rho : R) (Zprev : mat) (st : gl_state) : bool :=
  Rleb (fro p (fun i j => gl_Th st i j - gl_Z st i j)) (gl_eps_pri p tol st) &&
  Rleb (fro p (fun i j => rho * (gl_Z st i j - Zprev i j))) (gl_eps_dual p tol rho st).

(** moments.py:800-827: at most [fuel] more iterations, [it] already done. *)
Fixpoint gl_loop (eigh : eigh_oracle) (p : nat) (rho alpha tol : R) (S : mat) (fuel it : nat) (Z U : mat)
  : res (gl_state * nat) :=
  match fuel with
  | O => Err RuntimeError
  | Datatypes.S fuel' =>
      let* st := gl_step eigh p rho alpha S Z U in
      if gl_done p tol rho Z st then Ok (st, Datatypes.S it)
      else gl_loop eigh p rho alpha tol S fuel' (Datatypes.S it) (gl_Z st) (gl_U st)
  end.

(** moments.py:776-835 [_graphical_lasso_admm]: covariance, precision and iteration count. *)
Record gl_env := mkGlEnv {
  ge_eig : eig_oracle;              (* eigvalsh inside ensure_psd_matrix *)
  ge_eigh : eigh_oracle;            (* np.linalg.eigh *)
  ge_inv : inv_oracle;              (* np.linalg.inv *)
  ge_pinv : nat -> mat -> mat;      (* np.linalg.pinv *)
  ge_logdet : nat -> mat -> R }.    (* np.linalg.slogdet(...)[1] *)
Definition graphical_lasso_admm (env : gl_env) (p : nat) (S : mat) (alpha rho : R) (max_iter : nat) (tol : R)
  : res (mat * mat * nat) :=
  match ge_inv env p (fun i j => S i j + alpha * eye i j) with                  (* 797 *)
  | None => Err LinAlgError
  | Some Th0 =>
      let* (st, it) := gl_loop (ge_eigh env) p rho alpha tol S max_iter 0 Th0 (fun _ _ => 0) in
      let C := match ge_inv env p (gl_Th st) with Some C => C | None => ge_pinv env p (gl_Th st) end in
      let* cov := ensure_psd (ge_eig env) p C jit in                            (* 834 *)
      Ok (cov, gl_Th st, it)
  end.
(** The defaults of moments.py:780-782, used by every call in the library. *)
Definition gl_fit (env : gl_env) (p : nat) (S : mat) (alpha : R) : res (mat * mat * nat) :=
  graphical_lasso_admm env p S alpha 1 200 (1 / 10000).

(** moments.py:885-888: the grid of candidate penalties. *)
Definition max_offdiag (N : nat) (S : mat) : R :=
  fold_right Rmax 0 (map (fun i => fold_right Rmax 0 (map (fun j => if Nat.eqb i j then 0 else Rabs (S i j)) (seq 0 N))) (seq 0 N)).
Definition gl_alpha_max (N : nat) (S : mat) : R := Rmax (max_offdiag N S) (1 / 1000000).
Definition gl_alphas (amax : R) : list R := map (fun i => amax / sqrt 10 ^ i) (seq 0 5).

(** moments.py:891-898: [K = min(5, T)] folds by row index modulo [K]. *)
Definition gl_K (T : nat) : nat := Nat.min 5 T.
Definition train_rows (T K fold : nat) : list nat := filter (fun t => negb (Nat.eqb (t mod K) fold)) (seq 0 T).
Definition valid_rows (T K fold : nat) : list nat := filter (fun t => Nat.eqb (t mod K) fold) (seq 0 T).
(** [(X_s.T @ X_s) / len] of a selection of rows (moments.py:902, 906). *)
Definition row_cov (rows : list nat) (X : mat) : mat := fun i j =>
  rsum (map (fun t => X t i * X t j) rows) / INR (List.length rows).

(** moments.py:894-910: the scores of one candidate; a fold with an empty side is skipped. *)
Fixpoint gl_scores (env : gl_env) (T N K : nat) (X : mat) (a : R) (folds : list nat) : res (list R) :=
  match folds with
  | [] => Ok []
  | f :: rest =>
      match train_rows T K f, valid_rows T K f with
      | [], _ | _, [] => gl_scores env T N K X a rest
      | tr, va =>
          let* (_, P, _) := gl_fit env N (row_cov tr X) a in
          let V := row_cov va X in
          let s := ge_logdet env N P - trace N (fun i j => sumn N (fun k => V i k * P k j)) in
          let* ss := gl_scores env T N K X a rest in
          Ok (s :: ss)
      end
  end.

(** moments.py:911-915: [best] is [None] for minus infinity. *)
Fixpoint gl_search (env : gl_env) (T N K : nat) (X : mat) (best_a : R) (best : option R) (cands : list R) : res R :=
  match cands with
  | [] => Ok best_a
  | a :: rest =>
      let* ss := gl_scores env T N K X a (seq 0 K) in
      match ss with
      | [] => gl_search env T N K X best_a best rest
      | _ =>
          let m := rsum ss / INR (List.length ss) in
          if match best with None => true | Some b => Rltb (b + 1 / 100000000) m end
          then gl_search env T N K X a (Some m) rest
          else gl_search env T N K X best_a best rest
      end
  end.

(** moments.py:838-928 [sparse_precision_glasso]; the pair returned with [return_precision=True]
    (without it, the first component).  [GlBad] is a non-numeric string other than "auto". *)
Inductive gl_alpha := GlAuto | GlNum (a : R) | GlBad.
Definition gl_data (T : nat) (R_ : mat) (assume_centered : bool) : mat := if assume_centered then R_ else center T R_.
Definition gl_choose (env : gl_env) (T N : nat) (X : mat) (alpha : gl_alpha) : res R :=
  match alpha with
  | GlBad => Err ValueError
  | GlNum a => if Rleb a 0 then Err ValueError else Ok a                        (* 919-921 *)
  | GlAuto =>
      if Nat.eqb N 0 then Err ValueError                                        (* 886: max of an empty array *)
      else let al := gl_alphas (gl_alpha_max N (emp_cov T X)) in
           gl_search env T N (gl_K T) X (nth 4 al 0) None al
  end.
Definition sparse_precision_glasso (env : gl_env) (ndim T N : nat) (R_ : mat) (alpha : gl_alpha) (assume_centered : bool)
  : res (mat * mat) :=
  if negb (Nat.eqb ndim 2) then Err ValueError                                  (* 860-861 *)
  else if Nat.ltb T 2 then Err ValueError                                       (* 862-863 *)
  else let X := gl_data T R_ assume_centered in
       let* a := gl_choose env T N X alpha in
       let* (cov, P, _) := gl_fit env N (emp_cov T X) a in
       Ok (cov, P).
