(** Probability vectors in binary64 arithmetic: probabilities.py, and the checks of other modules that consume them. *)
From Verif Require Import RBase FpLib.
Open Scope R_scope.

(** [np.isclose(total, 1.0)]: |total - 1.0| <= 1e-8 + 1e-5 * |1.0|, every operation rounded. *)
Definition f_close1 (t : R) : bool :=
  Rleb (Rabs (fsub t 1)) (fadd (rnd (1 / 100000000)) (fmul (rnd (1 / 100000)) 1)).

(** probabilities.py:10-45 [normalize_probability_vector] on finite entries.  Simplification: the total does not overflow,
    so the [isfinite] checks hold. *)
Definition f_normalize (npsum : list R -> R) (strictly_positive : bool) (probs : list R) : res (list R) :=
  match probs with
  | [] => Err ValueError                                                                              (* 30-31 *)
  | _ =>
    if existsb (fun x => if strictly_positive then Rleb x 0 else Rltb x 0) probs then Err ValueError   (* 34-39 *)
    else let total := npsum probs in                                                                   (* 41 *)
         if Rleb total 0 then Err ValueError                                                           (* 41-42 *)
         else if f_close1 total then Ok probs                                                          (* 44 *)
         else Ok (map (fun x => fdiv x total) probs)                                                   (* 43-45 *)
  end.

(** probabilities.py:78-93 [generate_uniform_probabilities]. *)
Definition f_uniform (n : nat) : res (list R) :=
  match n with O => Err ValueError | _ => Ok (repeat (fdiv 1 (INR n)) n) end.

(** probabilities.py:96-114 [generate_exp_decay_probabilities]; [fexp] is [np.exp], [flog2] is [np.log(2)]. *)
Definition f_exp_raw (fexp : R -> R) (flog2 : R) (n : nat) (half_life : R) : list R :=
  map (fun k => fexp (fmul (fdiv (- flog2) half_life) (INR (n - k)))) (seq 1 n).
Definition f_exp_decay (npsum : list R -> R) (fexp : R -> R) (flog2 : R) (n : nat) (half_life : R) : res (list R) :=
  if Rleb half_life 0 then Err ValueError
  else let p := f_exp_raw fexp flog2 n half_life in Ok (map (fun x => fdiv x (npsum p)) p).

(** probabilities.py:154-163: the kernel weights once [v], [h] and [x_T] are known.  [h**2] is rounded once.  When [2*h**2]
    underflows to zero every quotient is NaN or -inf, the weights sum to NaN or 0 and line 162 raises. *)
Definition f_kernel (npsum : list R -> R) (fexp : R -> R) (v : list R) (h x_T : R) : res (list R) :=
  if Rleb h 0 then Err ValueError
  else
    let den := fmul 2 (fmul h h) in
    if Req_EM_T den 0 then Err ValueError
    else
      let w := map (fun y => fexp (fdiv (- fmul (fsub y x_T) (fsub y x_T)) den)) v in
      let s := npsum w in
      if Rleb s 0 then Err ValueError else Ok (map (fun x => fdiv x s) w).

(** portfolioapi.py:142-158: AssetsDistribution always divides by the total. *)
Definition f_dist_probs (npsum : list R -> R) (T : nat) (probs : option (list R)) : res (list R) :=
  let* probs := match probs with
                | None => f_uniform T
                | Some p => if Nat.eqb (length p) T then Ok p else Err ValueError
                end in
  if existsb (fun x => Rltb x 0) probs then Err ValueError
  else let s := npsum probs in
       if Rleb s 0 then Err ValueError else Ok (map (fun x => fdiv x s) probs).

(** portfolioapi.py:1225-1229: the probabilities handed to the CVaR programme. *)
Definition f_scenario_probs (npsum : list R -> R) (probs : list R) : res (list R) :=
  let s := npsum probs in
  if existsb (fun x => Rltb x 0) probs || Rleb s 0 then Err ValueError
  else Ok (if f_close1 s then probs else map (fun x => fdiv x s) probs).

(** probabilities.py:200-213 [compute_effective_number_scenarios_hhi]. *)
Definition f_hhi (npsum : list R -> R) (p : list R) : R := fdiv 1 (npsum (map (fun x => fmul x x) p)).
