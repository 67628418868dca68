(** Model of pyvallocation/utils/functions.py: portfolio VaR and CVaR.

    A weight matrix is the list of its columns (one per portfolio); the scenario
    matrix is the list of its rows.  [argsort] is a parameter: any sorting
    permutation (numpy's default quicksort is not stable). *)
From Verif Require Import RBase SortLib.
Open Scope R_scope.

(** The [demean] argument: None, a bool, or something else. *)
Inductive demean_arg := DNone | DBool (b : bool) | DOther.

(** functions.py:82 / 143: default probabilities [np.full((T,1), 1.0/T)]. *)
Definition default_p (T : nat) (p : option (list R)) : res (list R) :=
  match p with
  | Some p => Ok p
  | None => match T with
            | O => Err ZeroDivisionError
            | _ => Ok (repeat (1 / INR T) T)
            end
  end.

(** functions.py:84-85 / 145-146: [R - p.T @ R], the p-weighted column mean subtracted
    from every row; the product needs [len(p) = T]. *)
Definition col_mean (p : list R) (Rm : list (list R)) (j : nat) : R :=
  rsum (map2 (fun q row => q * nth j row 0) p Rm).

Definition demean_rows (p : list R) (Rm : list (list R)) : list (list R) :=
  map (fun row => map (fun j => nth j row 0 - col_mean p Rm j) (seq 0 (length row))) Rm.

(** [pf_pnl = R_arr @ w] for one column. *)
Definition pnl (Rm : list (list R)) (w : list R) : list R := map (fun row => rdot row w) Rm.

(** [np.broadcast_to(p, pf_pnl.shape)] along the scenarios. *)
Definition broadcast_p (T : nat) (p : list R) : res (list R) :=
  if Nat.eqb (length p) T then Ok p
  else match p with [q] => Ok (repeat q T) | _ => Err ValueError end.

Fixpoint cumsum (acc : R) (l : list R) : list R :=
  match l with [] => [] | x :: xs => (acc + x) :: cumsum (acc + x) xs end.

(** [(mask).argmax(axis=0)]: first True, or 0 when there is none. *)
Fixpoint first_true (l : list bool) : option nat :=
  match l with
  | [] => None
  | true :: _ => Some 0%nat
  | false :: l' => option_map S (first_true l')
  end.
Definition argmax_bool (l : list bool) : nat :=
  match first_true l with Some i => i | None => 0%nat end.

(** functions.py:93-97 / 153-157: the VaR scenario P&L of one column. *)
Definition var_pnl (argsort : list R -> list nat) (alpha : R) (x p : list R) : R :=
  let order := argsort x in
  let sorted_pnl := take 0 x order in
  let sorted_p := take 0 p order in
  let idx := argmax_bool (map (fun c => Rleb alpha c) (cumsum 0 sorted_p)) in
  nth idx sorted_pnl 0.

(** functions.py:102-107: CVaR P&L of one column. *)
Definition cvar_pnl (argsort : list R -> list nat) (alpha : R) (x p : list R) : R :=
  let var := var_pnl argsort alpha x p in
  let strict_prob := rsum (map2 (fun q y => if Rltb y var then q else 0) p x) in
  let strict_sum := rsum (map2 (fun q y => if Rltb y var then q * y else 0) p x) in
  (strict_sum + var * (alpha - strict_prob)) / alpha.

(** functions.py:52-110 [portfolio_cvar] and 113-160 [portfolio_var]: the shared
    preamble (lines 73-91 / 134-151), then [column] on every portfolio, negated. *)
Definition portfolio_risk (column : R -> list R -> list R -> R)
  (W : list (list R)) (Rm : list (list R)) (p : option (list R))
  (confidence : option R) (demean : demean_arg) : res (list R) :=
  let conf := match confidence with None => 95 / 100 | Some c => c end in
  if negb (Rltb 0 conf && Rltb conf 1) then Err ValueError
  else
    let* dm := match demean with DNone => Ok false | DBool b => Ok b | DOther => Err ValueError end in
    let T := length Rm in
    let* p := default_p T p in
    let* Rm := if dm : bool then
                 if Nat.eqb (length p) T then Ok (demean_rows p Rm) else Err ValueError
               else Ok Rm in
    if negb (forallb (fun row => forallb (fun w => Nat.eqb (length row) (length w)) W) Rm)
    then Err ValueError                                     (* R_arr @ W shape error *)
    else
      let* p := broadcast_p T p in
      if Nat.eqb T 0 then Err ValueError                    (* argmax of an empty sequence *)
      else Ok (map (fun w => - column (1 - conf) (pnl Rm w) p) W).

Definition portfolio_var argsort := portfolio_risk (var_pnl argsort).
Definition portfolio_cvar argsort := portfolio_risk (cvar_pnl argsort).
