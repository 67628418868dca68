(** Model of pyvallocation/stress.py and pyvallocation/utils/performance.py over exact reals.
    Scenario matrices and weights are finite index functions with explicit sizes; [argsort] is any
    sorting function (numpy's sort is not stable); random draws are explicit parameters. *)
From Coq Require Import DecimalString.
From Verif Require Import RBase QpBase SortLib OptModel ConsModel DistModel ProbRModel RiskModel ProjModel NiwModel BlModel EpModel.
From Verif Require MomModel.
Open Scope R_scope.
Open Scope list_scope.

(** Scenarios: a two-dimensional array, with column labels when it is a DataFrame. *)
Record scen := Scen { sc_cols : option (list label); sc_T : nat; sc_N : nat; sc_X : mat }.

(** Weights: DataFrame (row labels, column labels), Series (index, name), mapping (distinct keys), array. *)
Inductive weights :=
| WtFrame (idx cols : list label) (W : mat)
| WtSeries (idx : list label) (name : option label) (w : vec)
| WtMap (d : list (label * R))
| WtVec (n : nat) (w : vec)
| WtMat (n m : nat) (W : mat)
| WtOther.                                     (* an array with three or more dimensions *)

Definition dec_nat (i : nat) : string := NilEmpty.string_of_uint (Nat.to_uint i).
Definition dec_Z (z : Z) : string := NilEmpty.string_of_int (Z.to_int z).
(** [f"portfolio_{i}"]. *)
Definition portfolio_name (i : nat) : label := LStr ("portfolio_" ++ dec_nat i)%string.
(** [name or "portfolio_0"]: the empty string and 0 are false. *)
Definition name_or_default (n : option label) : label :=
  match n with
  | None | Some (LStr EmptyString) | Some (LInt 0) => portfolio_name 0
  | Some l => l
  end.

Definition mem (l : label) (ls : list label) : bool := existsb (label_eqb l) ls.
Definition subset (a b : list label) : bool := forallb (fun l => mem l b) a.
(** [sorted(set)] raises TypeError when strings and integers are mixed. *)
Definition is_str (l : label) : bool := match l with LStr _ => true | _ => false end.
Definition mixed (ls : list label) : bool := existsb is_str ls && existsb (fun l => negb (is_str l)) ls.

(** stress.py:34-89 [_align_weights]: rows, columns, matrix, resolved index, portfolio names. *)
Definition raw_weights (w : weights) : res (nat * nat * mat * option (list label) * list label) :=
  match w with
  | WtFrame idx cols W => Ok (List.length idx, List.length cols, W, Some idx, cols)                    (* 49-52 *)
  | WtSeries idx name v => Ok (List.length idx, 1%nat, fun i _ => v i, Some idx, [name_or_default name]) (* 53-56 *)
  | WtMap d => Ok (List.length d, 1%nat, fun i _ => nth i (map snd d) 0, Some (map fst d), [portfolio_name 0]) (* 57-61 *)
  | WtVec n v => Ok (n, 1%nat, fun i _ => v i, None, [portfolio_name 0])                               (* 64-67 *)
  | WtMat n m W => Ok (n, m, W, None, map portfolio_name (seq 0 m))                                    (* 68-71 *)
  | WtOther => Err ValueError                                                                          (* 72-73 *)
  end.
Definition align_weights (w : weights) (assets : option (list label)) : res (nat * nat * mat * option (list label) * list label) :=
  let* (n, m, W, idx, names) := raw_weights w in
  match assets, idx with
  | Some a, None => if Nat.eqb n (List.length a) then Ok (n, m, W, None, names) else Err ValueError     (* 76-78 *)
  | Some a, Some idx =>
      if subset idx a && subset a idx then                                                             (* 80 *)
        let order := map (fun l => match index_of l idx with Some i => i | None => 0%nat end) a in     (* 86 *)
        Ok (List.length a, m, fun i j => W (nth i order 0%nat) j, Some a, names)                       (* 87-88 *)
      else if mixed (filter (fun l => negb (mem l idx)) a) || mixed (filter (fun l => negb (mem l a)) idx)
           then Err TypeError else Err ValueError                                                      (* 81-85 *)
  | None, _ => Ok (n, m, W, idx, names)
  end.

(** probabilities.py:10-75 [resolve_probabilities] on finite reals (the non-finite cases are in ProbModel). *)
Definition normalize_probs (p : list R) : res (list R) :=
  match p with
  | [] => Err ValueError
  | _ => guard (negb (existsb (fun x => Rltb x 0) p)) ValueError
         (guard (Rltb 0 (rsum p)) ValueError
         (if risclose (rsum p) 1 then Ok p else Ok (map (fun x => x / rsum p) p)))
  end.
Definition resolve_probs (p : option (list R)) (T : nat) : res (list R) :=
  match p with
  | None => if Nat.eqb T 0 then Err ValueError else Ok (repeat (1 / INR T) T)
  | Some p => let* pn := normalize_probs p in guard (Nat.eqb (List.length pn) T) ValueError (Ok pn)
  end.

(** stress.py:92-105 [_kl_divergence]. *)
Definition kl_eps : R := / 10 ^ 16.
Definition kl_divergence (p_star p_nom : list R) : R :=
  rsum (map2 (fun a b => let p1 := Rmax a kl_eps in let p0 := Rmax b kl_eps in p1 * ln (p1 / p0)) p_star p_nom).

(** stress.py:172-193 [_metrics]: mean, volatility, VaR and CVaR per portfolio; effective number of scenarios. *)
Record metrics := Metrics { m_mean : list R; m_sd : list R; m_var : list R; m_cvar : list R; m_ens : R }.
Definition rows_of (T N : nat) (X : mat) : list (list R) := map (fun t => map (X t) (seq 0 N)) (seq 0 T).
Definition cols_of (N M : nat) (W : mat) : list (list R) := map (fun m => map (fun i => W i m) (seq 0 N)) (seq 0 M).
Definition metrics_of (argsort : list R -> list nat) (T N M : nat) (X W : mat) (p : list R) (conf : R) (demean : demean_arg) : res metrics :=
  let* (mu, sigma, _) := MomModel.estimate_sample_moments T N X (List.length p) (of_list p) MomModel.Arr MomModel.Arr in (* 185-187 *)
  let mean := map (fun m => sumn N (fun i => W i m * mu i)) (seq 0 M) in                                (* 188 *)
  let* var := portfolio_var argsort (cols_of N M W) (rows_of T N X) (Some p) (Some conf) demean in      (* 189 *)
  let* cvar := portfolio_cvar argsort (cols_of N M W) (rows_of T N X) (Some p) (Some conf) demean in    (* 190 *)
  (* 191: [sigma] is positive semi-definite here, so the square root is not NaN *)
  let sd := map (fun m => sqrt (sumn N (fun k => sumn N (fun l => W k m * sigma k l * W l m)))) (seq 0 M) in
  Ok (Metrics mean sd var cvar (compute_effective_number_scenarios p)).                                (* 192-193 *)

(** Result of [stress_test]: row labels, whether the index is named, the whole percentage in the VaR and
    CVaR column names, nominal metrics, stressed metrics, relative entropy; [so_suffix] ends the stressed
    column names. *)
Record stress_out := Out { so_names : list label; so_named : bool; so_pct : Z; so_nom : metrics; so_stress : option metrics;
                           so_kl : option R; so_suffix : string }.

(** [int(round(x))]: halves go to the even neighbour. *)
Definition py_round (x : R) : Z :=
  let f := Int_part x in
  if Rltb (x - IZR f) (1 / 2) then f
  else if Rltb (1 / 2) (x - IZR f) then (f + 1)%Z
  else if Z.even f then f else (f + 1)%Z.

(** A user transform: the returned two-dimensional array (rows, columns, possibly non-finite entries);
    results with another number of dimensions are rejected like any other shape and not represented. *)
Definition transform := nat -> nat -> mat -> res (nat * nat * (nat -> nat -> pyf)).

(** stress.py:108-239 [stress_test]. *)
Definition stress_test (argsort : list R -> list nat) (w : weights) (sc : scen) (p pst : option (list R)) (tr : option transform)
  (conf : R) (demean : demean_arg) : res stress_out :=
  let T := sc_T sc in let N := sc_N sc in
  guard (Rltb 0 conf && Rltb conf 1) ValueError                                                        (* 153-154 *)
  (let* p_nom := resolve_probs p T in                                                                  (* 167 *)
   let* (n, m, W, aligned, names) := align_weights w (sc_cols sc) in                                   (* 168 *)
   guard (Nat.eqb n N) ValueError                                                                      (* 169-170 *)
   (let* nom := metrics_of argsort T N m (sc_X sc) W p_nom conf demean in                              (* 195 *)
    let* X := match tr with                                                                            (* 205-211 *)
              | None => Ok (sc_X sc)
              | Some f => let* (T', N', Y) := f T N (sc_X sc) in
                          guard (Nat.eqb T' T && Nat.eqb N' N) ValueError
                          (guard (forallb (fun t => forallb (fun i => p_fin (Y t i)) (seq 0 N)) (seq 0 T)) ValueError
                           (Ok (fun t i => val (Y t i))))
              end in
    let pct := py_round (conf * 100) in
    let named := match aligned with Some _ => true | None => false end in                              (* 237-238 *)
    match pst, tr with                                                                                 (* 213 *)
    | None, None => Ok (Out names named pct nom None None "")
    | _, _ =>
        let* p_star := match pst with Some _ => resolve_probs pst T | None => Ok p_nom end in          (* 214-222 *)
        let* st := metrics_of argsort T N m X W p_star conf demean in                                  (* 223 *)
        Ok (Out names named pct nom (Some st) (match pst with Some _ => Some (kl_divergence p_star p_nom) | None => None end) "stress")
    end)).

(** The columns of the returned DataFrame (stress.py:197-203, 224-234; 535-540). *)
Definition metric_columns (suffix : string) (pct : Z) (k : nat) (m : metrics) : list (string * list R) :=
  [(("return_" ++ suffix)%string, m_mean m); (("stdev_" ++ suffix)%string, m_sd m);
   (("VaR" ++ dec_Z pct ++ "_" ++ suffix)%string, m_var m); (("CVaR" ++ dec_Z pct ++ "_" ++ suffix)%string, m_cvar m);
   (("ENS_" ++ suffix)%string, repeat (m_ens m) k)].
Definition columns (o : stress_out) : list (string * list R) :=
  let k := List.length (m_mean (so_nom o)) in
  metric_columns "nom" (so_pct o) k (so_nom o) ++
  match so_stress o with Some m => metric_columns (so_suffix o) (so_pct o) k m | None => [] end ++
  match so_kl o with Some d => [("KL_q_p"%string, repeat d k)] | None => [] end.

(** stress.py:242-284 [exp_decay_stress]. *)
Definition exp_decay_stress argsort w sc p (half_life : R) conf demean : res stress_out :=
  let* ps := generate_exp_decay_probabilities (Z.of_nat (sc_T sc)) half_life in
  stress_test argsort w sc p (Some ps) None conf demean.

(** stress.py:287-333 [kernel_focus_stress]; the focus series is flattened. *)
Definition kernel_focus_stress argsort w sc (focus : list R) p (bandwidth target : option R) conf demean : res stress_out :=
  guard (Nat.eqb (List.length focus) (sc_T sc)) ValueError
  (let* ps := generate_gaussian_kernel_probabilities focus None bandwidth target in
   stress_test argsort w sc p (Some ps) None conf demean).

(** stress.py:336-374 [entropy_pooling_stress]. *)
Definition entropy_pooling_stress argsort w sc (post : list R) p conf demean : res stress_out :=
  stress_test argsort w sc p (Some post) None conf demean.

(** stress.py:377-428 [linear_map]: the optional matrix has two dimensions; [mean_shift] is a vector, or
    something else ([ShOther]). *)
Inductive shift := ShNone | ShVec (n : nat) (b : vec) | ShOther.
Definition linear_map (sh : shift) (scale : option R) (B : option (nat * nat * mat)) : transform := fun T N X =>
  let* (N1, X1) := match B with
                   | None => Ok (N, X)
                   | Some (r, c, B) => guard (Nat.eqb c N) ValueError (Ok (r, fun t i => sumn N (fun k => X t k * B i k)))  (* 413-415 *)
                   end in
  let X2 := match scale with None => X1 | Some a => fun t i => X1 t i * a end in                        (* 416-417 *)
  let* X3 := match sh with
             | ShNone => Ok X2
             | ShVec n b => guard (Nat.eqb n N1) ValueError (Ok (fun t i => X2 t i + b i))              (* 420-423 *)
             | ShOther => Err ValueError                                                                (* 424-425 *)
             end in
  Ok (T, N1, fun t i => Fin (X3 t i)).

(** ** utils/performance.py *)
(** [DataFrame/Series.reindex]: duplicate labels raise, missing labels give NaN ([None]). *)
Fixpoint nodup_labels (l : list label) : bool := match l with [] => true | a :: t => negb (mem a t) && nodup_labels t end.
Definition reindex (idx target : list label) (W : mat) : res (nat -> nat -> option R) :=
  guard (nodup_labels idx) ValueError
  (Ok (fun i m => match nth_error target i with Some l => match index_of l idx with Some k => Some (W k m) | None => None end | None => None end)).
(** [if columns is not None and list(weights.index) != columns: weights = weights.reindex(columns)]. *)
Definition reindexed (idx : list label) (W : mat) (cols : option (list label)) : res (nat * (nat -> nat -> option R)) :=
  match cols with
  | Some c => if list_eq_dec label_dec idx c then Ok (List.length idx, fun i m => Some (W i m))
              else let* V := reindex idx c W in Ok (List.length c, V)
  | None => Ok (List.length idx, fun i m => Some (W i m))
  end.

(** [arr @ w] where an entry of [w] may be NaN. *)
Fixpoint osum (n : nat) (f : nat -> option R) : option R :=
  match n with
  | O => Some 0
  | S n' => match osum n' f, f n' with Some a, Some b => Some (a + b) | _, _ => None end
  end.
Definition odot (n : nat) (x : vec) (w : nat -> option R) : option R := osum n (fun i => option_map (Rmult (x i)) (w i)).

(** performance.py:26-94 [scenario_pnl]: number of portfolios, their labels (for a DataFrame or Series),
    and the P&L in scenario [t], portfolio [m] ([None] is NaN). *)
Definition scenario_pnl_of (w : weights) (sc : scen) : res (nat * option (list label) * (nat -> nat -> option R)) :=
  let* (n, m, V, names) :=
    match w with
    | WtFrame idx cols W => let* (n, V) := reindexed idx W (sc_cols sc) in Ok (n, List.length cols, V, Some cols)
    | WtSeries idx name v => let* (n, V) := reindexed idx (fun i _ => v i) (sc_cols sc) in
                             Ok (n, 1%nat, V, match name with Some l => Some [l] | None => Some [] end)
    | WtMap d => let* (n, V) := reindexed (map fst d) (fun i _ => nth i (map snd d) 0) (sc_cols sc) in Ok (n, 1%nat, V, Some [])
    | WtVec n v => Ok (n, 1%nat, fun i _ => Some (v i), None)
    | WtMat n m W => Ok (n, m, fun i j => Some (W i j), None)
    | WtOther => Err ValueError                       (* stacked products are not modelled *)
    end in
  guard (Nat.eqb n (sc_N sc)) ValueError
  (Ok (m, names, fun t j => odot n (sc_X sc t) (fun i => V i j))).

(** performance.py:97-206 [performance_report]: mean, volatility, VaR, CVaR, effective scenarios and the
    whole percentage in the labels. *)
Record report := Report { rp_mean : R; rp_sd : R; rp_var : R; rp_cvar : R; rp_ens : R; rp_pct : Z }.
Definition no_nan (n : nat) (V : nat -> nat -> option R) : bool := forallb (fun i => match V i 0%nat with Some _ => true | None => false end) (seq 0 n).
Definition some_or_0 (o : option R) : R := match o with Some x => x | None => 0 end.
Definition single_weights (w : weights) (cols : option (list label)) : res (nat * vec) :=
  match w with
  | WtSeries idx _ v => let* (n, V) := reindexed idx (fun i _ => v i) cols in
                        guard (no_nan n V) ValueError (Ok (n, fun i => some_or_0 (V i 0%nat)))                        (* 157-164 *)
  | WtFrame idx c W => guard (Nat.eqb (List.length c) 1) ValueError
                       (let* (n, V) := reindexed idx W cols in
                        guard (no_nan n V) ValueError (Ok (n, fun i => some_or_0 (V i 0%nat))))                       (* 165-174 *)
  | WtMap _ => Err TypeError                                                       (* 176: np.asarray(dict, dtype=float) *)
  | WtVec n v => Ok (n, v)
  | WtMat n m W => guard (Nat.eqb m 1) ValueError (Ok (n, fun i => W i 0%nat))                                        (* 180-182 *)
  | WtOther => Err ValueError
  end.
Definition single_report (argsort : list R -> list nat) (T N : nat) (X : mat) (p : list R) (w : vec) (conf : R) (demean : demean_arg) : res report :=
  let* (mu, cov, _) := MomModel.estimate_sample_moments T N X (List.length p) (of_list p) MomModel.Arr MomModel.Arr in
  let* var := portfolio_var argsort (cols_of N 1 (fun i _ => w i)) (rows_of T N X) (Some p) (Some conf) demean in
  let* cvar := portfolio_cvar argsort (cols_of N 1 (fun i _ => w i)) (rows_of T N X) (Some p) (Some conf) demean in
  Ok (Report (dot N w mu) (sqrt (quad N cov w)) (nth 0 var 0) (nth 0 cvar 0) (compute_effective_number_scenarios p) (py_round (conf * 100))).
Definition performance_report (argsort : list R -> list nat) (w : weights) (sc : scen) (p : option (list R)) (conf : R) (demean : demean_arg) : res report :=
  guard (Rltb 0 conf && Rltb conf 1) ValueError                                                                       (* 143-144 *)
  (let* p := resolve_probs p (sc_T sc) in                                                                             (* 155 *)
   let* (n, v) := single_weights w (sc_cols sc) in
   guard (Nat.eqb n (sc_N sc)) ValueError                                                                             (* 183-184 *)
   (single_report argsort (sc_T sc) (sc_N sc) (sc_X sc) p v conf demean)).                                            (* 187-206 *)

(** Arrays in row-major order as scenarios; anything but two dimensions raises ValueError. *)
Definition scen_of (cols : option (list label)) (a : rnd) : res scen :=
  match r_shape a with
  | [T; N] => Ok (Scen cols T N (fun t i => r_at a (t * N + i)%nat))
  | _ => Err ValueError
  end.
Definition kind_cols (kd : kind) : option (list label) := match kd with KFrame c => Some (map LStr c) | _ => None end.

(** Random draws: [rng seed ns h] are the uniform numbers of a generator with that seed asked for
    [ns] times [h] draws; [fresh i] those of the [i]-th unseeded generator. *)
Definition rng_t := Z -> nat -> nat -> nat -> nat -> R.
Definition draws_for (rng : rng_t) (fresh : nat -> nat -> nat -> R) (seed : option Z) (i : nat) (ns h : Z) : nat -> nat -> R :=
  match seed with Some s => rng (s + Z.of_nat i)%Z (Z.to_nat ns) (Z.to_nat h) | None => fresh i end.

(** performance.py:209-259 [horizon_report]: rows keyed by label; a repeated label replaces the row. *)
Definition horizon_label (h : Z) : string :=
  if (h =? 4)%Z then "1m" else if (h =? 13)%Z then "3m" else if (h =? 26)%Z then "6m" else if (h =? 52)%Z then "1y"
  else (dec_Z h ++ "w")%string.
Fixpoint set_row {A} (rows : list (string * A)) (k : string) (v : A) : list (string * A) :=
  match rows with
  | [] => [(k, v)]
  | (k', v') :: t => if String.eqb k' k then (k, v) :: t else (k', v') :: set_row t k v
  end.
Definition horizon_row argsort rng fresh (w : weights) (kd : kind) (X : rnd) (nsim : Z) (p : option nd) (reprice : option (rnd -> res rnd))
  (conf : R) (seed : option Z) (i : nat) (h : Z) : res report :=
  let f := match reprice with Some f => f | None => fun a => Ok (reprice_exp a) end in                                (* 241-242 *)
  let* scn := project_scenarios kd X (HInt h) p nsim (Some f) (draws_for rng fresh seed i nsim h) in                  (* 247-252 *)
  let* sc := scen_of (kind_cols kd) scn in
  performance_report argsort w sc None conf (DBool false).                                                            (* 253-255 *)
Fixpoint horizon_rows argsort rng fresh w kd X nsim p reprice conf seed (i : nat) (hs : list Z) (acc : list (string * report)) : res (list (string * report)) :=
  match hs with
  | [] => Ok acc
  | h :: t => let* r := horizon_row argsort rng fresh w kd X nsim p reprice conf seed i h in
              horizon_rows argsort rng fresh w kd X nsim p reprice conf seed (S i) t (set_row acc (horizon_label h) r)
  end.
Definition horizon_report argsort rng fresh w kd X (horizons : list Z) nsim p reprice conf seed : res (list (string * report)) :=
  horizon_rows argsort rng fresh w kd X nsim p reprice conf seed 0 horizons [].

(** [np.asarray(weights, dtype=float).ravel()]: labels are not looked at; a mapping raises TypeError. *)
Definition ravel (w : weights) : res (list R) :=
  match w with
  | WtFrame idx cols W => Ok (map (fun k => W (k / List.length cols)%nat (k mod List.length cols)%nat) (seq 0 (List.length idx * List.length cols)))
  | WtSeries idx _ v => Ok (map v (seq 0 (List.length idx)))
  | WtMap _ => Err TypeError
  | WtVec n v => Ok (map v (seq 0 n))
  | WtMat n m W => Ok (map (fun k => W (k / m)%nat (k mod m)%nat) (seq 0 (n * m)))
  | WtOther => Err ValueError                       (* not modelled *)
  end.

(** performance.py:308-310: running maximum, drawdowns and maximum drawdown of one wealth path. *)
Fixpoint acc_max (m : R) (l : list R) : list R := match l with [] => [] | x :: t => Rmax m x :: acc_max (Rmax m x) t end.
Definition maximum_accumulate (l : list R) : list R := match l with [] => [] | x :: t => x :: acc_max x t end.
Definition drawdowns (wealth : list R) : list R :=
  map2 (fun m x => (m - x) / (if Rltb 0 m then m else 1)) (maximum_accumulate wealth) wealth.
Definition list_max (l : list R) : R := match l with [] => 0 | x :: t => fold_left Rmax t x end.
(** [np.quantile] with linear interpolation. *)
Definition np_quantile (l : list R) (q : R) : R :=
  let s := MomModel.rsort l in
  let pos := INR (List.length l - 1) * q in
  let lo := Z.to_nat (Int_part pos) in
  nth lo s 0 + (pos - INR lo) * (nth (Nat.min (S lo) (List.length l - 1)) s 0 - nth lo s 0).

(** performance.py:262-318 [drawdown_quantile]. *)
Record dd_out := Dd { dd_mean : R; dd_median : R; dd_q : R; dd_worst : R; dd_pct : Z }.
Definition path_wealth (paths : rnd) (h n : nat) (w : list R) (s : nat) : list R :=
  map (fun t => 1 + sumn n (fun j => r_at paths ((s * h + t) * n + j)%nat * nth j w 0)) (seq 0 h).
Definition drawdown_quantile (w : weights) (X : rnd) (horizon : Z) (conf : R) (npaths : Z) (p : option nd)
  (reprice : option (rnd -> res rnd)) (u : nat -> nat -> R) : res dd_out :=
  let f := match reprice with Some f => f | None => fun a => Ok (reprice_exp a) end in                                (* 294-295 *)
  let* wv := ravel w in                                                                                               (* 297 *)
  let* paths := simulate_paths X horizon npaths p (Some f) u in                                                       (* 298-301 *)
  match r_shape paths with
  | [ns; h; n] =>
      guard (Nat.eqb (List.length wv) n) ValueError                                                                   (* 304 *)
      (guard (negb (Nat.eqb h 0) && negb (Nat.eqb ns 0)) ValueError                     (* 310, 317: maximum of nothing *)
      (guard (Rleb 0 conf && Rleb conf 1) ValueError                                                                  (* 316 *)
       (let max_dd := map (fun s => list_max (drawdowns (path_wealth paths h n wv s))) (seq 0 ns) in
        Ok (Dd (rsum max_dd / INR ns) (MomModel.median max_dd) (np_quantile max_dd conf) (list_max max_dd) (py_round (conf * 100))))))
  | _ => Err ValueError
  end.

(** stress.py:473-480: the repricing function and the instrument names. *)
Definition invariants_repricer (rp : reprice_arg) (cols : option (list string)) : res ((rnd -> res rnd) * option (list string)) :=
  match rp with
  | RDict d => match cols with
               | Some c => let* (f, names) := compose_repricers d c in Ok (f, Some names)
               | None => Err TypeError
               end
  | RFun f => Ok (f, None)
  | RDefault => Ok (fun a => Ok (reprice_exp a), None)
  end.

(** stress.py:431-542 [stress_invariants], for two-dimensional invariants. *)
Definition stress_invariants minimize argsort chol normals (cols : option (list string)) (T K : nat) (X : mat) (w : weights) (rp : reprice_arg)
  (views : list (vkey * vspec)) (horizon nsim : Z) (rng : rng_t) (fresh : nat -> nat -> nat -> R) (seed : option Z) (conf : R) (demean : demean_arg) : res stress_out :=
  let* (f, inst) := invariants_repricer rp cols in                                                                    (* 474-480 *)
  let inv := mkR [T; K] (fun k => X (k / K)%nat (k mod K)%nat) in
  let* pnl_nom := project_scenarios KArr inv (HInt horizon) None nsim (Some f) (draws_for rng fresh seed 0 nsim horizon) in   (* 487-489 *)
  let* pnl_st :=                                                                                                      (* 492-500 *)
    match views with
    | [] => Ok None
    | _ => let* r := flexible_views minimize argsort chol normals (PScen (option_map (map LStr) cols) T K X None) (Views (WDict views) WNone WNone WNone [] WNone [] None false) in
           let* y := project_scenarios KArr inv (HInt horizon) (Some (mkND [T] (fun k => Fin (f_q r k)))) nsim (Some f) (draws_for rng fresh seed 1 nsim horizon) in
           Ok (Some y)
    end in
  let frame := match inst with Some names => KFrame names | None => match cols with Some c => KFrame c | None => KArr end end in
  let* pnl_df := wrap frame (Z.to_nat nsim) pnl_nom in                                                                (* 503-508 *)
  match pnl_st with
  | Some y =>                                                                                                         (* 510-540 *)
      let* sn := scen_of None pnl_nom in
      let* ss := scen_of None y in
      let* pn := resolve_probs None (sc_T sn) in
      let* ps := resolve_probs None (sc_T ss) in
      let* wv := ravel w in
      guard (Nat.eqb (List.length wv) (sc_N sn) && Nat.eqb (List.length wv) (sc_N ss)) ValueError
      (let* mn := metrics_of argsort (sc_T sn) (sc_N sn) 1 (sc_X sn) (fun i _ => nth i wv 0) pn conf demean in
       let* ms := metrics_of argsort (sc_T ss) (sc_N ss) 1 (sc_X ss) (fun i _ => nth i wv 0) ps conf demean in
       Ok (Out [LInt 0] false (py_round (conf * 100)) mn (Some ms) None "stressed"))
  | None => let* sc := scen_of (kind_cols frame) pnl_df in stress_test argsort w sc None None None conf demean       (* 542 *)
  end.
