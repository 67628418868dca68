(** VaR and CVaR in binary64 arithmetic: the part of functions.py:52-160 downstream of the portfolio P&L. *)
From Verif Require Import RBase SortLib RiskModel FpLib.
Open Scope R_scope.

(** functions.py:93-97 / 153-157: one column; [np.cumsum] adds left to right and rounds every partial sum, and the mask
    compares the rounded sums with the rounded tail level. *)
Definition f_var_pnl (argsort : list R -> list nat) (tail : R) (x p : list R) : R :=
  let order := argsort x in
  let idx := argmax_bool (map (fun c => Rleb tail c) (fcumsum 0 (take 0 p order))) in
  nth idx (take 0 x order) 0.

(** functions.py:102-107: every product, difference, sum and quotient is rounded; multiplying by a mask is exact.
    [npsum] is [np.sum], whose order of additions depends on the array layout. *)
Definition f_cvar_pnl (npsum : list R -> R) (argsort : list R -> list nat) (tail : R) (x p : list R) : R :=
  let var := f_var_pnl argsort tail x p in
  let strict_prob := npsum (map2 (fun q y => if Rltb y var then q else 0) p x) in
  let strict_sum := npsum (map2 (fun q y => if Rltb y var then fmul q y else 0) p x) in
  fdiv (fadd strict_sum (fmul var (fsub tail strict_prob))) tail.

(** functions.py:81-82 / 142-143: default probabilities [np.full((T,1), 1.0/T)]. *)
Definition f_default_p (T : nat) (p : option (list R)) : res (list R) :=
  match p with
  | Some p => Ok p
  | None => match T with O => Err ZeroDivisionError | _ => Ok (repeat (fdiv 1 (INR T)) T) end
  end.

(** functions.py:73-110 / 134-160 with the P&L matrix [pf_pnl] given by its columns [X] ([T] entries each): the literal
    0.95 is the nearest binary64 number, and the tail level is [1.0 - conf] rounded.  Negation is exact.  Simplification:
    the matrix product (and demeaning) that yields [X] is the caller's; see [fp_pnl_error]. *)
Definition f_portfolio_risk (column : R -> list R -> list R -> R) (T : nat) (X : list (list R)) (p : option (list R))
  (confidence : option R) : res (list R) :=
  let conf := match confidence with None => rnd (95 / 100) | Some c => c end in
  if negb (Rltb 0 conf && Rltb conf 1) then Err ValueError
  else
    let* p := f_default_p T p in
    let* p := broadcast_p T p in
    if Nat.eqb T 0 then Err ValueError
    else Ok (map (fun x => - column (fsub 1 conf) x p) X).

Definition f_portfolio_var argsort := f_portfolio_risk (f_var_pnl argsort).
Definition f_portfolio_cvar npsum argsort := f_portfolio_risk (f_cvar_pnl npsum argsort).

(** functions.py:87-89 / 148-149: one column of [R_arr @ W]; [vdot] is the BLAS inner product. *)
Definition f_pnl (vdot : list R -> list R -> R) (rows : list (list R)) (w : list R) : list R := map (fun row => vdot row w) rows.

(** [np.sum(a * b)] (discrete_allocation.py:300): rounded products, added in some order. *)
Definition f_dot (npsum : list R -> R) (row w : list R) : R := npsum (map2 fmul row w).
