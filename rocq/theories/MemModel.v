(** Memory model of [AssetsDistribution] and [PortfolioWrapper] (pyvallocation/portfolioapi.py:73-228, 712-804,
    1114-1176): which stored attributes are the caller's own arrays.

    [np.asarray(x, dtype=float)], [Series.to_numpy(dtype=float)] and [DataFrame.to_numpy(dtype=float)] return the
    buffer of [x] itself when [x] is a float64 array (or a pandas object holding one); lists, integer arrays and mixed
    frames are copied.  [reshape(-1)] and [ravel()] of a contiguous array keep the buffer.  Which of the two
    happens is part of the argument here ([Shared] or [Copied]).  Writes to an array are [x.flat[k] = v]: they keep its shape. *)
From Coq Require Import ZArith String.
From Verif Require Import RBase QpBase SortLib RiskModel ConsModel MomModel DistModel ConvModel OptModel FrModel WrModel.
Open Scope R_scope.
Open Scope list_scope.

(** The caller's float arrays, by address. *)
Definition store := nat -> nd.
Definition write (s : store) (l k : nat) (x : pyf) : store :=
  fun l' => if Nat.eqb l' l then mkND (nd_shape (s l)) (fun j => if Nat.eqb j k then x else nd_at (s l) j) else s l'.

(** What [np.asarray] makes of an argument. *)
Inductive arr := Copied (a : nd) | Shared (l : nat).
Definition fetch (s : store) (x : arr) : nd := match x with Copied a => a | Shared l => s l end.

(** Constructor arguments (portfolioapi.py:65-69) and their contents. *)
Record in_ref := mkInRef {
  r_mu : option (option (list string) * arr); r_cov : option (option (list string * list string) * arr);
  r_scen : option (option (list string) * arr); r_probs : option arr; r_names : option (list string) }.
Definition read_lab {L} (s : store) (o : option (L * arr)) : option (L * nd) := option_map (fun p => (fst p, fetch s (snd p))) o.
Definition read_in (s : store) (i : in_ref) : dist_in :=
  mkIn (read_lab s (r_mu i)) (read_lab s (r_cov i)) (read_lab s (r_scen i)) (option_map (fetch s) (r_probs i)) (r_names i).

(** portfolioapi.py:196-202: the attributes.  [probs / prob_sum] (158) is a new array, and so are estimated moments (166-170);
    [list(asset_names)] (89) copies the names. *)
Record sdist := mkSD {
  sd_N : nat; sd_T : option nat; sd_mu : option arr; sd_cov : option arr; sd_scen : option arr; sd_probs : option nd;
  sd_names : option (list string) }.
Definition keep {L} (given : option (L * arr)) (made : option nd) : option arr :=
  match given with Some (_, x) => Some x | None => option_map Copied made end.
Definition new_dist (s : store) (i : in_ref) : res sdist :=
  let* d := make_dist (read_in s i) in
  Ok (mkSD (d_N d) (d_T d) (keep (r_mu i) (d_mu d)) (keep (r_cov i) (d_cov d)) (keep (r_scen i) (d_scen d)) (d_probs d) (d_names d)).

(** The attributes as anyone reads them now ([mu] is [reshape(-1)] of the argument, 173). *)
Definition view (s : store) (d : sdist) : dist :=
  mkDist (sd_N d) (sd_T d) (option_map (fun x => flat (fetch s x)) (sd_mu d)) (option_map (fetch s) (sd_cov d))
    (option_map (fetch s) (sd_scen d)) (sd_probs d) (sd_names d).

(** portfolioapi.py:231-241 [TransactionCosts]; entries are finite (a non-finite one counts as 0 here). *)
Record costs_ref := mkCostsRef { kr_iw : arr; kr_mic : option arr; kr_pc : option arr }.
Definition reals (a : nd) : list R := map (fun k => val (nd_at a k)) (seq 0 (nd_size a)).
Definition read_costs (s : store) (k : costs_ref) : costs :=
  mkCosts (reals (fetch s (kr_iw k))) (option_map (fun x => reals (fetch s x)) (kr_mic k)) (option_map (fun x => reals (fetch s x)) (kr_pc k)).

(** portfolioapi.py:712-749, 791-804, 1114-1139: constraint matrices are compiled at construction; cost vectors are kept
    as [np.asarray(...).ravel()]. *)
Record swrap := mkSW { sw_dist : sdist; sw_mats : matrices; sw_costs : option costs_ref }.
Definition new_wrapper (s : store) (i : in_ref) (arg : cons_arg) (k : option costs_ref) (long_only : bool) (total : option pynum)
  (bounds : option bounds_like) : res swrap :=
  let* d := new_dist s i in
  let* w := make_wrapper (view s d) arg (option_map (read_costs s) k) long_only total bounds in
  Ok (mkSW d (w_mats w) k).

(** The wrapper as its methods read it now. *)
Definition current (s : store) (w : swrap) : wrapper :=
  let k := option_map (read_costs s) (sw_costs w) in
  mkW (view s (sw_dist w)) (sw_mats w) (option_map k_iw k) (match k with Some k => k_mic k | None => None end)
    (match k with Some k => k_pc k | None => None end) false None.

(** Method calls (portfolioapi.py:1290-2041).  None of them assigns to an attribute or writes to a stored array; costs and
    constraints passed to a call are read when the call is made. *)
Inductive request :=
| MinVariance (target : R) (arg : cons_arg) (k : option costs_ref)
| MinCvar (sim : nat -> vec) (target alpha : R) (arg : cons_arg) (k : option costs_ref)
| RobustGamma (gamma_mu gamma_sigma : R) (arg : cons_arg) (k : option costs_ref)
| RelaxedParity (lam : R) (multiplier target : option R) (budgets : option (list R)) (arg : cons_arg) (k : option costs_ref)
| VarianceFrontier (num : Z) (arg : cons_arg) (k : option costs_ref)
| CvarFrontier (sim : nat -> vec) (lab raw : R -> string) (num : Z) (alpha : R) (enforce : bool) (arg : cons_arg) (k : option costs_ref)
| RobustFrontier (num : Z) (max_lambda : R) (lams : option (list R)) (return_cov : option cov_ref) (arg : cons_arg) (k : option costs_ref)
| ParityFrontier (num : Z) (max_mult lam : R) (mults : option (list R)) (include : bool) (budgets : option (list R)) (arg : cons_arg) (k : option costs_ref).
Inductive answer := APortfolio (p : portfolio) | AFrontier (f : frontier_t).
Definition ask (E : env) (s : store) (w : swrap) (q : request) : res answer :=
  let c := current s w in
  let kk := option_map (read_costs s) in
  match q with
  | MinVariance t a k => let* p := min_variance_at_return E c t a (kk k) in Ok (APortfolio p)
  | MinCvar sim t al a k => let* p := min_cvar_at_return E sim c t al a (kk k) in Ok (APortfolio p)
  | RobustGamma gm gs a k => let* p := solve_robust_gamma E c gm gs a (kk k) in Ok (APortfolio p)
  | RelaxedParity lam m t b a k => let* p := relaxed_risk_parity E c lam m t b a (kk k) in Ok (APortfolio (fst p))
  | VarianceFrontier n a k => let* f := variance_frontier E c n a (kk k) in Ok (AFrontier f)
  | CvarFrontier sim lab raw n al e a k => let* f := cvar_frontier_w E sim lab raw c n al e a (kk k) in Ok (AFrontier f)
  | RobustFrontier n mx ls rc a k => let* f := robust_lambda_frontier E c n mx ls rc a (kk k) in Ok (AFrontier (fst f))
  | ParityFrontier n mx lam ms inc b a k => let* f := relaxed_risk_parity_frontier E c n mx lam ms inc b a (kk k) in Ok (AFrontier (fst f))
  end.

(** A session: the caller writes to arrays and calls methods, in any order. *)
Inductive event := Put (l k : nat) (x : pyf) | Ask (q : request).
Fixpoint session (E : env) (w : swrap) (s : store) (h : list event) : store * list (res answer) :=
  match h with
  | [] => (s, [])
  | Put l k x :: t => session E w (write s l k x) t
  | Ask q :: t => let r := session E w s t in (fst r, ask E s w q :: snd r)
  end.
