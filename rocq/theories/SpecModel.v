(** Model of the spec builders and of the ensemble entry point: pyvallocation/ensembles.py:225-244, 423-444, 451-816,
    852-1219 and portfolioapi.py:290-345, 385-403, 2043-2105.

    Strings are ASCII ([lower] and [strip] act on ASCII characters only).  Row labels of a table are strings.
    [rng i] renders the default integer label [i] (distinct for distinct positions). *)
From Coq Require Import String Ascii.
From Verif Require Import RBase QpBase SortLib RiskModel ConsModel MomModel DistModel ConvModel EpModel StModel OptModel EnsModel AsmModel FrModel WrModel.
Open Scope R_scope.
Open Scope list_scope.

(** ** Python strings *)
(** [str.lower] *)
Definition lower_ascii (a : ascii) : ascii :=
  let n := nat_of_ascii a in if ((65 <=? n) && (n <=? 90))%nat then ascii_of_nat (n + 32) else a.
Fixpoint lower (s : string) : string :=
  match s with EmptyString => EmptyString | String a s' => String (lower_ascii a) (lower s') end.
(** [str.strip]: white space is \t..\r, 0x1c..0x1f and the blank. *)
Definition is_space (a : ascii) : bool :=
  let n := nat_of_ascii a in (((9 <=? n) && (n <=? 13)) || ((28 <=? n) && (n <=? 32)))%nat.
Fixpoint lstrip (s : string) : string :=
  match s with EmptyString => EmptyString | String a s' => if is_space a then lstrip s' else s end.
Fixpoint rstrip (s : string) : string :=
  match s with
  | EmptyString => EmptyString
  | String a s' => match rstrip s' with
                   | EmptyString => if is_space a then EmptyString else String a EmptyString
                   | r => String a r
                   end
  end.
Definition strip (s : string) : string := lstrip (rstrip s).
Definition one_of (k : string) (l : list string) : bool := existsb (String.eqb k) l.

(** ** Selectors, ensembles.py:933-1107 [_build_selector] *)
(** Values of [selector_kwargs].  Numbers written as strings are not modelled (TypeError here). *)
Inductive kwval := VNone | VNum (x : R) | VInt (z : Z) | VStr (s : string).
Definition kwargs := list (string * kwval).
Definition as_num (v : kwval) : res R :=
  match v with VNum x => Ok x | VInt z => Ok (IZR z) | _ => Err TypeError end.
(** A label that is not a string is not a key of the risk dictionary. *)
Definition as_label (v : option kwval) : res (option string) :=
  match v with None | Some VNone => Ok None | Some (VStr s) => Ok (Some s) | _ => Err KeyError end.
(** [int(x)]: truncation. *)
Definition as_int (v : kwval) : res Z :=
  match v with
  | VInt z => Ok z
  | VNum x => Ok (if Rleb 0 x then Int_part x else (- Int_part (- x))%Z)
  | VStr _ => Err ValueError
  | VNone => Err TypeError
  end.

(** The closure: a selector, or arguments on which running it raises. *)
Inductive closure := Chosen (s : selector) | Broken (e : pyerr).
Definition ready (r : res selector) : closure := match r with Ok s => Chosen s | Err e => Broken e end.

Definition need (name : string) (kw : kwargs) : res kwval :=
  match lookup name kw with Some v => Ok v | None => Err ValueError end.

Definition build_selector (name : string) (kw : kwargs) : res closure :=
  let key := lower name in                                                                                  (* 969 *)
  let label := as_label (lookup "risk_label" kw) in
  if one_of key ["tangency"; "max_sharpe"; "sharpe"]%string then                                            (* 966-981 *)
    Ok (ready (let* r := match lookup "risk_free_rate" kw with Some v => as_num v | None => Ok 0 end in Ok (SelTangency r)))
  else if one_of key ["min_risk"; "minimum_risk"]%string then                                               (* 983-998 *)
    Ok (ready (let* l := label in Ok (SelMinRisk l)))
  else if one_of key ["max_return"; "maximum_return"]%string then Ok (Chosen SelMaxReturn)                  (* 1000-1014 *)
  else if one_of key ["risk_target"; "max_return_subject_to_risk"]%string then                              (* 1016-1038 *)
    let* v := need "max_risk" kw in Ok (ready (let* l := label in let* m := as_num v in Ok (SelRiskTarget m l)))
  else if one_of key ["risk_match"; "risk_nearest"]%string then                                             (* 1040-1062 *)
    let* v := need "target_risk" kw in Ok (ready (let* l := label in let* t := as_num v in Ok (SelRiskMatch t l)))
  else if one_of key ["risk_percentile"; "risk_pct"; "percentile"]%string then                              (* 1064-1086 *)
    let* v := need "percentile" kw in Ok (ready (let* l := label in let* p := as_num v in Ok (SelPercentile p l)))
  else if one_of key ["column"; "index"]%string then                                                        (* 1088-1105 *)
    match lookup "index" kw with
    | None | Some VNone => Err ValueError
    | Some v => Ok (ready (let* z := as_int v in Ok (SelColumn z)))
    end
  else Err ValueError.                                                                                      (* 1107 *)

(** utils/weights.py:65-84 [wrap_exposure_vector], portfolioapi.py:318-331 [_to_pandas] and ensembles.py:349-363
    [_series_from_vector]: a Series with the asset names, or with default labels. *)
Definition labelled (rng : nat -> string) (names : option (list string)) (w : list R) : list (string * R) :=
  combine (match names with Some l => l | None => map rng (seq 0 (List.length w)) end) w.

(** What a selector returns: a Series, an array, or a tuple whose first entry is used. *)
Inductive sel_out := OSeries (l : list (string * R)) | OArr (w : list R).
Inductive sel_result := Plain (o : sel_out) | Tup (l : list sel_out).
(** ensembles.py:772-795 [_coerce_weights_series]. *)
Definition coerce (rng : nat -> string) (f : frontier_t) (r : sel_result) : res (list (string * R)) :=
  let* o := match r with Plain o => Ok o | Tup (o :: _) => Ok o | Tup [] => Err IndexError end in
  match o with
  | OSeries l => Ok l
  | OArr w => match f_names f with
              | Some (n :: ns) => if Nat.eqb (List.length (n :: ns)) (List.length w) then Ok (combine (n :: ns) w) else Err ValueError
              | _ => Ok (labelled rng None w)
              end
  end.

Inductive sel_arg := SelName (s : string) | SelFun (f : frontier_t -> res sel_result).
(** ensembles.py:748 with 950-967: the selector stored on a spec, run for the first time ([FrModel.run_selector] has the
    state it leaves behind). *)
Definition run_closure argsort rng (c : closure) (f : frontier_t) : res sel_result :=
  match c with
  | Broken e => Err e
  | Chosen s => let* w := snd (run_selector argsort s f) in Ok (Plain (OSeries (labelled rng (f_names f) w)))
  end.
Definition selector_of argsort rng (a : sel_arg) (kw : kwargs) : res (frontier_t -> res sel_result) :=
  match a with
  | SelFun f => Ok f
  | SelName s => let* c := build_selector s kw in Ok (run_closure argsort rng c)
  end.

(** ** Optimisers, ensembles.py:852-930 [_resolve_optimiser] *)
(** [optimiser_kwargs]; an absent key is [None] (a key given with value None counts as absent). *)
Record opt_kwargs := mkOK {
  o_num : option Z; o_alpha : option R; o_seed : option Z; o_enforce : option bool; o_max_lambda : option R;
  o_lambdas : option (list R); o_return_cov : option cov_ref; o_max_mult : option R; o_lam : option R;
  o_mults : option (list R); o_include : option bool; o_rb : option (list R); o_costs : option costs; o_cons : cons_arg }.
Definition given {A} (o : option A) : bool := match o with Some _ => true | None => false end.
Definition dflt {A} (o : option A) (d : A) : A := match o with Some x => x | None => d end.
(** Keywords outside a method's signature raise TypeError (portfolioapi.py:1290, 1333, 1425, 1839). *)
Definition kw_cvar (k : opt_kwargs) : bool := given (o_alpha k) || given (o_seed k) || given (o_enforce k).
Definition kw_robust (k : opt_kwargs) : bool := given (o_max_lambda k) || given (o_lambdas k) || given (o_return_cov k).
Definition kw_rrp (k : opt_kwargs) : bool :=
  given (o_max_mult k) || given (o_lam k) || given (o_mults k) || given (o_include k) || given (o_rb k).

(** What the model cannot compute: the solvers, the generator (by seed) and the rendering of labels. *)
Record world := mkWorld {
  wd_env : env; wd_sim : option Z -> nat -> vec; wd_lab : R -> string; wd_raw : R -> string; wd_rng : nat -> string }.

Definition call_mv (W : world) (w : wrapper) (k : opt_kwargs) : res frontier_t :=
  if kw_cvar k || kw_robust k || kw_rrp k then Err TypeError
  else variance_frontier (wd_env W) w (dflt (o_num k) 10%Z) CNone (o_costs k).
Definition call_cvar (W : world) (w : wrapper) (k : opt_kwargs) : res frontier_t :=
  if kw_robust k || kw_rrp k then Err TypeError
  else cvar_frontier_w (wd_env W) (wd_sim W (o_seed k)) (wd_lab W) (wd_raw W) w (dflt (o_num k) 10%Z) (dflt (o_alpha k) (5 / 100))
         (dflt (o_enforce k) true) CNone (o_costs k).
Definition call_robust (W : world) (w : wrapper) (k : opt_kwargs) : res frontier_t :=
  if kw_cvar k || kw_rrp k then Err TypeError
  else let* r := robust_lambda_frontier (wd_env W) w (dflt (o_num k) 10%Z) (dflt (o_max_lambda k) 2) (o_lambdas k) (o_return_cov k)
                   CNone (o_costs k) in Ok (fst r).
Definition call_rrp (W : world) (w : wrapper) (k : opt_kwargs) : res frontier_t :=
  if kw_cvar k || kw_robust k then Err TypeError
  else let* r := relaxed_risk_parity_frontier (wd_env W) w (dflt (o_num k) 10%Z) (dflt (o_max_mult k) (16 / 10)) (dflt (o_lam k) (2 / 10))
                   (o_mults k) (dflt (o_include k) true) (o_rb k) CNone (o_costs k) in Ok (fst r).

Inductive opt_arg := OptName (s : string) | OptFun (f : wrapper -> opt_kwargs -> res frontier_t).
Definition resolve_optimiser (W : world) (o : opt_arg) : res (wrapper -> opt_kwargs -> res frontier_t) :=
  match o with
  | OptFun f => Ok f                                                                                        (* 867-868 *)
  | OptName s => let key := lower s in                                                                      (* 869 *)
      if one_of key ["mean_variance"; "mv"]%string then Ok (call_mv W)                                      (* 919-927 *)
      else if one_of key ["mean-cvar"; "cvar"]%string then Ok (call_cvar W)
      else if one_of key ["rrp"; "relaxed_risk_parity"]%string then Ok (call_rrp W)
      else if String.eqb key "robust" then Ok (call_robust W)
      else Err ValueError                                                                                   (* 928-929 *)
  end.

(** ensembles.py:735-746: the wrapper with default constraints, replaced when "constraints" is given. *)
Definition set_mats (w : wrapper) (m : matrices) : wrapper :=
  mkW (w_dist w) m (w_iw w) (w_mic w) (w_pc w) (w_log w) (w_unc w).
Definition spec_wrapper (d : dist) (arg : cons_arg) : res wrapper :=
  let* w := make_wrapper d CNone None true (Some (Num (Fin 1))) None in
  match arg with
  | CNone => Ok w
  | CObj c => let* (m, _) := to_matrices c (Z.of_nat (d_N d)) in Ok (set_mats w m)
  | CDict e => let* (m, _) := to_matrices (from_dict e) (Z.of_nat (d_N d)) in Ok (set_mats w m)
  end.
Definition frontier_factory (W : world) (src : res dist) (o : opt_arg) (k : opt_kwargs) : res frontier_t :=
  let* d := src in
  let* w := spec_wrapper d (o_cons k) in
  let* f := resolve_optimiser W o in
  f w k.

(** ** Distributions, ensembles.py:1110-1219 *)
(** A DataFrame of returns. *)
Record table := mkTab { tb_index : list string; tb_cols : list string; tb_vals : nd }.

(** [projection]: recognised keys and whether any other key is present. *)
Record proj_opts := mkProj {
  pj_annual : option R; pj_log : option bool; pj_simple : option bool;
  pj_transform : option (vec * mat -> res (vec * mat)); pj_other : bool }.
Definition truthy (o : option bool) : bool := match o with Some b => b | None => false end.
(** ensembles.py:1191-1219 [_apply_projection]; "to_simple" is popped only when "log_to_simple" is false. *)
Definition apply_projection (o : proj_opts) (ms : vec * mat) : res (vec * mat) :=
  let ms := match pj_annual o with Some h => project_mean_covariance (fst ms) (snd ms) h | None => ms end in
  let ms := if truthy (pj_log o) || truthy (pj_simple o) then log2simple (fst ms) (snd ms) else ms in
  let* ms := match pj_transform o with Some f => f ms | None => Ok ms end in
  if pj_other o || (truthy (pj_log o) && given (pj_simple o)) then Err ValueError else Ok ms.

Inductive probs_arg := PNone | PSeries (l : list (string * pyf)) | PSeq (l : list pyf).
Definition resolve_pyf (l : list pyf) (T : nat) : res (list R) :=
  match finite_all l with Some rs => resolve_probs (Some rs) T | None => Err ValueError end.
Fixpoint distinct (l : list string) : bool :=
  match l with [] => true | x :: l' => negb (one_of x l') && distinct l' end.
(** ensembles.py:1144-1162: [reindex] needs distinct labels unless the index is already the right one. *)
Definition align_probs (l : list (string * pyf)) (index : list string) : res (list pyf) :=
  if names_eqb (map fst l) index then Ok (map snd l)
  else if distinct (map fst l) then reindex l index else Err ValueError.
Definition table_probs (p : probs_arg) (t : table) : res (option (list R)) :=
  let T := List.length (tb_index t) in
  match p with
  | PNone => Ok None
  | PSeries l => let* v := align_probs l (tb_index t) in let* q := resolve_pyf v T in Ok (Some q)
  | PSeq l => let* q := resolve_pyf l T in Ok (Some q)
  end.

(** moments.py:1226-1235 with 233: with probabilities the row labels of the probability Series are compared with the
    asset labels when there are as many rows as assets. *)
Definition label_clash (t : table) (p : option (list R)) : res unit :=
  match p with
  | None => Ok tt
  | Some _ => let* _ := labels [Labelled (tb_cols t); Labelled (tb_index t)] in Ok tt
  end.

(** ensembles.py:1164-1188.  [est] is [estimate_moments] with the chosen estimators.  A [transform] is taken to return
    objects labelled like its arguments. *)
Definition ridge : R := 1 / 10000000000.
Definition moments_dist (eig : eig_oracle) (est : table -> option (list R) -> res (vec * mat)) (t : table) (p : option (list R))
  (proj : option proj_opts) : res dist :=
  let n := List.length (tb_cols t) in
  let* _ := label_clash t p in
  let* ms := est t p in
  let* ms := match proj with Some o => apply_projection o ms | None => Ok ms end in
  let* P := ensure_psd eig n (snd ms) jit in
  let P' := fun i j => P i j + eye i j * ridge in
  make_dist (mkIn (Some (Some (tb_cols t), nd_vec n (fst ms))) (Some (Some (tb_cols t, tb_cols t), nd_mat n P')) None None None).

Definition list_nd (l : list R) : nd := mkND [List.length l] (fun k => Fin (nth k l 0)).
Record data_src := mkSrc {
  s_returns : option table; s_probs : probs_arg; s_pre : option (table -> res table); s_proj : option proj_opts;
  s_dist : option dist; s_factory : option (res dist); s_scen : bool }.
(** ensembles.py:1110-1188 [_build_distribution]. *)
Definition build_distribution (eig : eig_oracle) (est : table -> option (list R) -> res (vec * mat)) (s : data_src) : res dist :=
  match s_factory s, s_dist s, s_returns s with
  | Some d, _, _ => d                                                                                       (* 1133-1134 *)
  | None, Some d, _ => Ok d                                                                                 (* 1135-1136 *)
  | None, None, None => Err ValueError                                                                      (* 1137-1138 *)
  | None, None, Some t =>
      let* t := match s_pre s with Some f => f t | None => Ok t end in                                      (* 1140-1142 *)
      let* p := table_probs (s_probs s) t in                                                                (* 1144-1164 *)
      if s_scen s then                                                                                      (* 1166-1170 *)
        make_dist (mkIn None None (Some (Some (tb_cols t), tb_vals t)) (option_map list_nd p) None)
      else moments_dist eig est t p (s_proj s)
  end.

(** ** Specs and ensembles *)
(** ensembles.py:451-467 [EnsembleSpec]: the factory as what it returns, the selector as a function. *)
Record pspec := mkPS {
  ps_name : string; ps_frontier : res frontier_t; ps_selector : frontier_t -> res sel_result; ps_selection : option (list Z) }.

(** ensembles.py:639-766 [make_portfolio_spec]. *)
Definition make_portfolio_spec (W : world) eig est (name : string) (src : data_src) (o : opt_arg) (k : opt_kwargs)
  (sel : sel_arg) (kw : kwargs) (cols : option (list Z)) : res pspec :=
  let* s := selector_of (e_sort (wd_env W)) (wd_rng W) sel kw in
  Ok (mkPS name (frontier_factory W (build_distribution eig est src) o k) s cols).
(** portfolioapi.py:2043-2087 [make_ensemble_spec]: only the distribution of the wrapper is passed on. *)
Definition make_ensemble_spec (W : world) eig est (w : wrapper) (name : string) (o : opt_arg) (k : opt_kwargs)
  (sel : sel_arg) (kw : kwargs) (cols : option (list Z)) : res pspec :=
  make_portfolio_spec W eig est name
    (mkSrc None PNone None None None (Some (Ok (w_dist w))) (given (d_scen (w_dist w)))) o k sel kw cols.

(** What blending reads of a frontier. *)
Definition to_ens (f : frontier_t) : EnsModel.frontier := EnsModel.mkF (f_n f) (map (fun c => of_list c) (f_cols f)) (f_risk f) (f_names f).

(** ensembles.py:558-563: one pass of the loop. *)
Definition run_spec (rng : nat -> string) (s : pspec) : res (frontier_t * AsmModel.spec) :=
  let* f := ps_frontier s in
  let* r := ps_selector s f in
  let* sel := coerce rng f r in
  Ok (f, AsmModel.mkSpec (ps_name s) (to_ens f) sel (ps_selection s)).

(** ensembles.py:798-816 [_normalise_ensemble_argument]. *)
Inductive ens_arg := ENone | EStr (s : string) | ESeq (l : list string).
Definition ensemble_names (a : ens_arg) : list string :=
  match a with
  | ENone => []
  | EStr s => let k := lower (strip s) in if one_of k [""; "none"]%string then [] else [k]
  | ESeq l => map (fun s => lower (strip s)) (filter (fun s => negb (String.eqb s "") && negb (String.eqb (strip s) "")) l)
  end.
(** ensembles.py:569-571. *)
Definition mode_of (combine : string) : mode :=
  let k := lower combine in
  if String.eqb k "selected" then Selected else if String.eqb k "frontier" then FrontierMode else OtherMode.

(** ensembles.py:470-514 [EnsembleResult] (metadata left out). *)
Record ens_result := mkER {
  er_frontiers : list (string * frontier_t); er_selections : list (string * list (string * R)); er_ensembles : list (string * blend) }.
Definition to_dict {A} (l : list (string * A)) : list (string * A) := fold_left (fun d kv => dict_set d (fst kv) (snd kv)) l [].
Definition er_get (r : ens_result) (name : string) (default : option blend) : option blend :=
  match lookup name (er_ensembles r) with Some b => Some b | None => default end.
Definition er_average (r : ens_result) : option blend := lookup "average" (er_ensembles r).
Definition er_stacked (r : ens_result) : option blend := lookup "stack" (er_ensembles r).

(** ensembles.py:517-636 [assemble_portfolio_ensemble]; portfolioapi.py:2089-2105 [assemble_ensembles] is the same call. *)
Definition assemble_portfolio_ensemble (solver : qp -> option vec) (rng : nat -> string) (specs : list pspec) (a : ens_arg) (combine : string)
  (folds : option Z) (w : warg) : res ens_result :=
  if Nat.eqb (List.length specs) 0 then Err ValueError
  else
    let* rs := mapM (run_spec rng) specs in
    let* es := assemble solver (map snd rs) (ensemble_names a) (mode_of combine) folds w in
    Ok (mkER (to_dict (map (fun r => (sp_name (snd r), fst r)) rs)) (map (fun r => (sp_name (snd r), sp_selected (snd r))) rs) (to_dict es)).
Definition assemble_ensembles (w0 : wrapper) := assemble_portfolio_ensemble.

(** ** Small helpers *)
(** ensembles.py:225-244 [stack_portfolios]. *)
Definition stack_portfolios (solver : qp -> option vec) (entries : list EnsModel.entry) (sel : option (list (option (list Z)))) (L : Z)
  : res (vec * option (list string)) :=
  let* p := collect_samples entries sel in
  exposure_stacking solver (mkPanel (pn_n p) (pn_cols p) (match pn_assets p with Some [] => None | a => a end) None) L.
(** ensembles.py:423-444 [risk_percentile_selections]. *)
Definition risk_percentile_selections argsort (fs : list frontier_t) (p : R) (label : option string) : res (list (list Z)) :=
  mapM (fun f => let* i := index_at_risk_percentile argsort f p label in Ok [Z.of_nat i]) fs.
(** portfolioapi.py:291-297 [available_risk_measures]. *)
Definition available_risk_measures (f : frontier_t) : list string := f_measure f :: map fst (f_alt f).
(** portfolioapi.py:385-403 [to_samples]: a frame or the raw matrix with the asset names. *)
Inductive samples := SFrame (fr : option (list string) * list (col_label * list R)) | SRaw (cols : list (list R)) (names : option (list string)).
Definition to_samples (f : frontier_t) (columns : option (list Z)) (as_frame : bool) : res samples :=
  if as_frame then let* t := to_frame f columns None in Ok (SFrame t)
  else let* m := select_weights f columns in Ok (SRaw m (f_names f)).
