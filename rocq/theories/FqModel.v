(** Portfolio variance and volatility in binary64 arithmetic. *)
From Verif Require Import RBase FpLib.
Open Scope R_scope.

(** functions.py:33-37 [portfolio_variance] of one portfolio: [np.sum((w.T @ cov) * w.T)].  [cov] is given by its columns;
    [vdot] is the BLAS inner product behind [@], [npsum] is [np.sum]. *)
Definition f_variance (vdot : list R -> list R -> R) (npsum : list R -> R) (w : list R) (cov : list (list R)) : R :=
  npsum (map2 fmul (map (fun col => vdot w col) cov) w).

(** functions.py:39-50 [portfolio_volatility] (also portfolioapi.py:1321, 1379, 1521, 1536): IEEE square root is correctly rounded;
    of a negative number it is NaN, here [None]. *)
Definition f_volatility (vdot : list R -> list R -> R) (npsum : list R -> R) (w : list R) (cov : list (list R)) : option R :=
  let v := f_variance vdot npsum w cov in
  if Rltb v 0 then None else Some (rnd (sqrt v)).
