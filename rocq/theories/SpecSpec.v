(** What portfolio specs promise. *)
From Coq Require Import String Ascii.
From Verif Require Import RBase QpBase SortLib RiskModel ConsModel ConsSpec MomModel MomSpec DistModel DistSpec ConvModel StModel OptModel EnsModel EnsSpec AsmModel FrModel FrSpec WrModel WrSpec SpecModel.
Open Scope R_scope.
Open Scope list_scope.

(** ** Selector names *)
Inductive family := FTangency | FMinRisk | FMaxReturn | FRiskTarget | FRiskMatch | FPercentile | FColumn.
Definition aliases (fm : family) : list string :=
  match fm with
  | FTangency => ["tangency"; "max_sharpe"; "sharpe"]
  | FMinRisk => ["min_risk"; "minimum_risk"]
  | FMaxReturn => ["max_return"; "maximum_return"]
  | FRiskTarget => ["risk_target"; "max_return_subject_to_risk"]
  | FRiskMatch => ["risk_match"; "risk_nearest"]
  | FPercentile => ["risk_percentile"; "risk_pct"; "percentile"]
  | FColumn => ["column"; "index"]
  end%string.
(** The option a family cannot do without. *)
Definition required (fm : family) : option string :=
  match fm with
  | FRiskTarget => Some "max_risk" | FRiskMatch => Some "target_risk" | FPercentile => Some "percentile" | FColumn => Some "index"
  | _ => None
  end%string.
Definition supplied_option (name : string) (kw : kwargs) : Prop :=
  exists v, lookup name kw = Some v /\ (name = "index"%string -> v <> VNone).
Definition known_selector (name : string) (kw : kwargs) : Prop :=
  exists fm, In (lower name) (aliases fm) /\ forall r, required fm = Some r -> supplied_option r kw.

(** A numeric option. *)
Definition number (kw : kwargs) (name : string) (x : R) : Prop :=
  lookup name kw = Some (VNum x) \/ exists z, lookup name kw = Some (VInt z) /\ x = IZR z.
Definition risk_label_option (kw : kwargs) : option string :=
  match lookup "risk_label" kw with Some (VStr s) => Some s | _ => None end.

(** Frontiers of the robust optimiser that carry a volatility overlay. *)
Definition has_overlay (f : frontier_t) : Prop :=
  (exists a b, f_measure f = (a ++ "Estimation Risk" ++ b)%string) /\ exists v, In ("Volatility"%string, v) (f_alt f).
(** The risk measure a risk-based selector works with. *)
Definition working_label (f : frontier_t) (l l' : option string) : Prop :=
  match l with
  | Some _ => l' = l
  | None => (has_overlay f /\ l' = Some "Volatility"%string) \/ (~ has_overlay f /\ l' = None)
  end.

(** A number cut off towards zero. *)
Definition cut_off (v : kwval) (z : Z) : Prop :=
  v = VInt z \/ exists x, v = VNum x /\ (0 <= x /\ IZR z <= x < IZR z + 1 \/ x < 0 /\ IZR z - 1 < x <= IZR z).

(** The column a family picks. *)
Inductive picks argsort (kw : kwargs) (f : frontier_t) (i : nat) : family -> Prop :=
| pick_tangency rf :
    number kw "risk_free_rate" rf \/ (lookup "risk_free_rate" kw = None /\ rf = 0) ->
    first_best (size f) (fun j => nthr (f_risk f) j <> 0) (fun j => - ((ret_of f j - rf) / nthr (f_risk f) j)) i ->
    picks argsort kw f i FTangency
| pick_min_risk risks :
    risks_for f (risk_label_option kw) risks -> first_best (size f) anyp (nthr risks) i ->
    picks argsort kw f i FMinRisk
| pick_max_return :
    first_best (size f) anyp (fun j => - ret_of f j) i -> picks argsort kw f i FMaxReturn
| pick_risk_target m l risks :
    number kw "max_risk" m -> working_label f (risk_label_option kw) l -> risks_for f l risks ->
    first_best (size f) (fun j => nthr risks j <= m) (fun j => - ret_of f j) i -> picks argsort kw f i FRiskTarget
| pick_risk_match t l risks :
    number kw "target_risk" t -> working_label f (risk_label_option kw) l -> risks_for f l risks ->
    first_best (size f) anyp (fun j => Rabs (nthr risks j - t)) i -> picks argsort kw f i FRiskMatch
| pick_percentile p q l ps :
    number kw "percentile" p -> (q = p /\ 0 <= p <= 1 \/ q = p / 100 /\ 1 < p <= 100) ->
    working_label f (risk_label_option kw) l -> risk_percentiles argsort f l = Ok ps ->
    first_best (size f) anyp (fun j => Rabs (nthr ps j - q)) i -> picks argsort kw f i FPercentile
| pick_column v z :
    lookup "index" kw = Some v -> cut_off v z -> (i < size f)%nat ->
    (z = Z.of_nat i \/ z = (Z.of_nat i - Z.of_nat (size f))%Z) -> picks argsort kw f i FColumn.

(** Options some selector reads. *)
Definition recognised : list string :=
  ["risk_free_rate"; "risk_label"; "max_risk"; "target_risk"; "percentile"; "index"]%string.

(** ** Optimiser names *)
Definition optimiser_table : list (string * (world -> wrapper -> opt_kwargs -> res frontier_t)) :=
  [("mean_variance", call_mv); ("mv", call_mv); ("mean-cvar", call_cvar); ("cvar", call_cvar);
   ("rrp", call_rrp); ("relaxed_risk_parity", call_rrp); ("robust", call_robust)]%string.

(** No option besides constraints and costs. *)
Definition plain_options (c : cons_arg) (k : option costs) : opt_kwargs :=
  mkOK None None None None None None None None None None None None k c.

(** ** Distributions *)
(** A DataFrame: one row per index label, one column per asset. *)
Definition table_ok (t : table) : Prop := nd_shape (tb_vals t) = [List.length (tb_index t); List.length (tb_cols t)].
(** Raw weight of the row in position [k]: equal, by position, or by row label. *)
Definition raw_prob (p : probs_arg) (t : table) (k : nat) : R :=
  match p with
  | PNone => 1
  | PSeq l => value_of (nth k l NaN)
  | PSeries l => match assoc (nth k (tb_index t) EmptyString) l with Some x => value_of x | None => 0 end
  end.
Definition rows (t : table) : nat := List.length (tb_index t).
Definition unique_labels (p : probs_arg) : Prop := forall l, p = PSeries l -> NoDup (map fst l).
(** Usable probabilities: every row gets a non-negative number, and not all are zero. *)
Definition usable_weights (p : probs_arg) (t : table) : Prop :=
  match p with
  | PNone => True
  | PSeq l => List.length l = rows t /\ forall x, In x l -> exists r, x = Fin r /\ 0 <= r
  | PSeries l => forall k, (k < rows t)%nat -> exists r, assoc (nth k (tb_index t) EmptyString) l = Some (Fin r) /\ 0 <= r
  end /\ 0 < sumn (rows t) (raw_prob p t).
(** The rows' probabilities. *)
Definition row_prob (p : probs_arg) (t : table) (k : nat) : R := raw_prob p t k / sumn (rows t) (raw_prob p t).

(** Rows shared with assets: as many, but named differently. *)
Definition labels_clash (t : table) : Prop := rows t = List.length (tb_cols t) /\ tb_index t <> tb_cols t.

(** ** Constraints of a spec *)
(** The constraints given, or long-only fully invested. *)
Definition spec_constraints (a : cons_arg) : constraints :=
  match a with CNone => mkC true (Some (Num (Fin 1))) None None None None None | CObj c => c | CDict d => from_dict d end.
(** A labelled portfolio over the assets [names] that satisfies [c]. *)
Definition labelled_allowed (c : constraints) (names : list string) (t : list (string * R)) : Prop :=
  exists w, List.length w = List.length names /\ t = combine names w /\ satisfies c (List.length names) w.

(** ** Where the data come from *)
Definition from_returns (s : data_src) : Prop := s_factory s = None /\ s_dist s = None.
Definition prepared (s : data_src) (t : table) : Prop :=
  exists t0, s_returns s = Some t0 /\ match s_pre s with Some f => f t0 = Ok t | None => t = t0 end.
(** Finite returns, one row per index label and one column per asset, neither empty. *)
Definition numeric_table (t : table) : Prop :=
  (0 < rows t)%nat /\ (0 < List.length (tb_cols t))%nat /\ has_shape (tb_vals t) [rows t; List.length (tb_cols t)].

(** The moments after the requested projection. *)
Definition projected (s : data_src) (ms : vec * mat) : res (vec * mat) :=
  match s_proj s with Some o => apply_projection o ms | None => Ok ms end.

(** ** Sound specs *)
(** A distribution obtained from the constructor. *)
Definition built (d : dist) : Prop := exists i, make_dist i = Ok d.
(** Every portfolio of the frontier is over the assets [names] and satisfies [c]. *)
Definition frontier_allowed (c : constraints) (names : option (list string)) (n : nat) (f : frontier_t) : Prop :=
  FrSpec.well_formed f /\ f_n f = n /\ f_names f = names /\ forall col, In col (f_cols f) -> List.length col = n /\ satisfies c n col.
(** A spec that only ever produces portfolios satisfying [c]. *)
Record sound_spec (c : constraints) (names : list string) (s : pspec) : Prop := {
  ss_frontier : forall f, ps_frontier s = Ok f -> frontier_allowed c (Some names) (List.length names) f;
  ss_selection : forall f r, ps_frontier s = Ok f -> ps_selector s f = Ok r ->
    exists l, r = Plain (OSeries l) /\ labelled_allowed c names l }.
Definition nonneg_weights (w : warg) : Prop :=
  match w with WNone => True | WSeq l => forall r, In (Fin r) l -> 0 <= r | WSeries l => forall k r, In (k, Fin r) l -> 0 <= r end.
(** A blend over the assets [names] whose weights satisfy [c]. *)
Definition blend_allowed (c : constraints) (names : list string) (b : blend) : Prop :=
  match b with
  | BTable t => exists l, labelled_allowed c names l /\ t = map (fun kv => (fst kv, Some (snd kv))) l
  | BVec v labels => labels = Some names /\ allowed c (List.length names) v
  end.

(** The columns an entry offers for blending. *)
Definition entry_columns (e : EnsModel.entry) : list vec :=
  match e with EFrontier f => EnsModel.f_cols f | EPanel p => pn_cols p end.

(** The probabilities handed to the estimators: proportional to the raw ones. *)
Definition weights_used (p : probs_arg) (t : table) (q : option (list R)) : Prop :=
  match p with
  | PNone => q = None
  | _ => exists l u, q = Some l /\ List.length l = rows t /\ 0 < u /\ forall k, (k < rows t)%nat -> nth k l 0 = raw_prob p t k / u
  end.

(** ** Options of the optimisers *)
Definition option_names (k : opt_kwargs) : list string :=
  let opt {A} (o : option A) s := match o with Some _ => [s] | None => [] end in
  opt (o_num k) "num_portfolios"%string ++ opt (o_alpha k) "alpha"%string ++ opt (o_seed k) "seed"%string ++
  opt (o_enforce k) "enforce_convexity"%string ++ opt (o_max_lambda k) "max_lambda"%string ++ opt (o_lambdas k) "lambdas"%string ++
  opt (o_return_cov k) "return_cov"%string ++ opt (o_max_mult k) "max_multiplier"%string ++ opt (o_lam k) "lambda_reg"%string ++
  opt (o_mults k) "target_multipliers"%string ++ opt (o_include k) "include_risk_parity"%string ++ opt (o_rb k) "risk_budgets"%string ++
  opt (o_costs k) "costs"%string.
Definition known_options (optimiser : string) : list string :=
  ["num_portfolios"; "costs"]%string ++
  match lookup optimiser [("mean-cvar", 1); ("cvar", 1); ("robust", 2); ("rrp", 3); ("relaxed_risk_parity", 3)]%nat%string with
  | Some 1%nat => ["alpha"; "seed"; "enforce_convexity"]
  | Some 2%nat => ["max_lambda"; "lambdas"; "return_cov"]
  | Some 3%nat => ["max_multiplier"; "lambda_reg"; "target_multipliers"; "include_risk_parity"; "risk_budgets"]
  | _ => []
  end%string.

(** An ensemble name as it is understood: without surrounding white space, in lower case. *)
Definition understood (s : string) : string := lower (strip s).
