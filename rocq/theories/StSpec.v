(** What stress tests and performance reports must say. *)
From Coq Require Import Permutation Sorted.
From Verif Require Import RBase QpBase OptModel ConsModel DistModel RiskModel RiskSpec MomSpec BlModel ProjModel StModel FvSpec.
From Verif Require ProjSpec.
Open Scope R_scope.
Open Scope list_scope.

(** Labels, number of rows, portfolio names and entries of a weights argument. *)
Definition labels_of (w : weights) : option (list label) :=
  match w with
  | WtFrame idx _ _ | WtSeries idx _ _ => Some idx
  | WtMap d => Some (map fst d)
  | _ => None
  end.
Definition rows_in (w : weights) : nat :=
  match w with
  | WtFrame idx _ _ | WtSeries idx _ _ => List.length idx
  | WtMap d => List.length d
  | WtVec n _ | WtMat n _ _ => n
  | WtOther => 0
  end.
Definition names_of (w : weights) : list label :=
  match w with
  | WtFrame _ cols _ => cols
  | WtSeries _ name _ => [name_or_default name]
  | WtMap _ | WtVec _ _ => [portfolio_name 0]
  | WtMat _ m _ => map portfolio_name (seq 0 m)
  | WtOther => []
  end.
Definition wentry (w : weights) (k m : nat) : R :=
  match w with
  | WtFrame _ _ W | WtMat _ _ W => W k m
  | WtSeries _ _ v | WtVec _ v => v k
  | WtMap d => nth k (map snd d) 0
  | WtOther => 0
  end.

(** The holding of portfolio [m] in scenario column [i]: the entry under the column's label when both are
    labelled, the entry at the same position otherwise. *)
Definition holding (w : weights) (cols : option (list label)) (i m : nat) (x : R) : Prop :=
  match cols, labels_of w with
  | Some c, Some idx => exists l k, nth_error c i = Some l /\ first_at idx l k /\ x = wentry w k m
  | _, _ => x = wentry w i m
  end.
(** A scenario frame has one label per column. *)
Definition frame_ok (sc : scen) : Prop := forall c, sc_cols sc = Some c -> List.length c = sc_N sc.

(** P&L of holdings [h] in every scenario. *)
Definition book_pnl (T N : nat) (X : mat) (h : vec) : list R := map (fun t => sumn N (fun i => X t i * h i)) (seq 0 T).
(** P&L net of its expectation when [demean] is true. *)
Definition net_of (dm : demean_arg) (p x : list R) : list R :=
  match dm with DBool true => map (fun y => y - expect p x (fun z => z)) x | _ => x end.
(** Mean, volatility, VaR and CVaR of the P&L [x] under probabilities [p]. *)
Definition measured (p x : list R) (conf : R) (dm : demean_arg) (mean sd var cvar : R) : Prop :=
  mean = expect p x (fun y => y) /\
  0 <= sd /\ sd ^ 2 = expect p x (fun y => (y - mean) ^ 2) /\
  is_quantile p (net_of dm p x) (1 - conf) (- var) /\
  is_cvar p (net_of dm p x) (1 - conf) cvar.
(** One set of measures per portfolio, and the effective number of scenarios. *)
Definition reports (m : metrics) (k : nat) (p : list R) (x : nat -> list R) (conf : R) (dm : demean_arg) : Prop :=
  List.length (m_mean m) = k /\ List.length (m_sd m) = k /\ List.length (m_var m) = k /\ List.length (m_cvar m) = k /\
  (forall j, (j < k)%nat -> measured p (x j) conf dm (nth j (m_mean m) 0) (nth j (m_sd m) 0) (nth j (m_var m) 0) (nth j (m_cvar m) 0)) /\
  m_ens m = exp (- rsum (map (fun q => if Rlt_dec 0 q then q * ln q else 0) p)).

(** The probabilities used for a given argument: uniform by default, otherwise the given ones divided by their total. *)
Definition in_force (p : option (list R)) (T : nat) (q : list R) : Prop :=
  match p with
  | None => q = repeat (1 / INR T) T
  | Some l => q = map (fun x => x / rsum l) l
  end.
(** The total is one or clearly something else (within 1.001e-5 of one it is left alone). *)
Definition clean (p : option (list R)) : Prop :=
  forall l, p = Some l -> rsum l = 1 \/ 1 / 100000000 + 1 / 100000 < Rabs (rsum l - 1).
(** Acceptable probabilities. *)
Definition usable (p : option (list R)) (T : nat) : Prop :=
  match p with
  | None => T <> 0%nat
  | Some l => List.length l = T /\ (forall x, In x l -> 0 <= x) /\ 0 < rsum l
  end.

(** Labels for the rows and columns agree as sets, or (when only the scenarios are labelled) in number. *)
Definition labels_match (w : weights) (cols : option (list label)) : Prop :=
  match cols, labels_of w with
  | Some c, Some idx => forall l, In l c <-> In l idx
  | _, _ => True
  end.

(** Relative entropy with the usual convention at zero. *)
Definition rel_entropy (q p : list R) : R := rsum (map2 (fun a b => if Req_EM_T a 0 then 0 else a * ln (a / b)) q p).

(** Two labelled weights arguments hold the same positions. *)
Definition at_label (w : weights) (l : label) (m : nat) (x : R) : Prop :=
  exists idx k, labels_of w = Some idx /\ nth_error idx k = Some l /\ x = wentry w k m.
Definition same_labels (a b : option (list label)) : Prop :=
  match a, b with Some l, Some l' => NoDup l /\ NoDup l' /\ (forall x, In x l <-> In x l') | _, _ => False end.
Definition same_book (w w' : weights) : Prop :=
  same_labels (labels_of w) (labels_of w') /\ names_of w = names_of w' /\
  forall l m x, (m < List.length (names_of w))%nat -> (at_label w l m x <-> at_label w' l m x).
(** Two labelled scenario frames hold the same columns. *)
Definition at_column (sc : scen) (l : label) (t : nat) (x : R) : Prop :=
  exists c k, sc_cols sc = Some c /\ nth_error c k = Some l /\ x = sc_X sc t k.
Definition same_columns (sc sc' : scen) : Prop :=
  sc_T sc = sc_T sc' /\ frame_ok sc /\ frame_ok sc' /\
  same_labels (sc_cols sc) (sc_cols sc') /\
  forall l t x, (t < sc_T sc)%nat -> (at_column sc l t x <-> at_column sc' l t x).

(** The weights fit the scenarios. *)
Definition fits (w : weights) (sc : scen) : Prop :=
  w <> WtOther /\ labels_match w (sc_cols sc) /\
  match sc_cols sc, labels_of w with Some _, Some _ => True | _, _ => rows_in w = sc_N sc end.
(** A transform returns a finite matrix [Y] of the right shape. *)
Definition gives (tr : transform) (sc : scen) (Y : mat) : Prop :=
  exists Z, tr (sc_T sc) (sc_N sc) (sc_X sc) = Ok (sc_T sc, sc_N sc, Z) /\
  forall t i, (t < sc_T sc)%nat -> (i < sc_N sc)%nat -> Z t i = ConsModel.Fin (Y t i).

(** [x] is the P&L of portfolio [j] on the scenario matrix [X]. *)
Definition pnl_of (w : weights) (sc : scen) (X : mat) (j : nat) (x : list R) : Prop :=
  exists h : vec, (forall i, (i < sc_N sc)%nat -> holding w (sc_cols sc) i j (h i)) /\ x = book_pnl (sc_T sc) (sc_N sc) X h.
(** The metrics are those of every portfolio on [X] under the probabilities [q]. *)
Definition measures_book (m : metrics) (w : weights) (sc : scen) (X : mat) (q : list R) (conf : R) (dm : demean_arg) : Prop :=
  exists x : nat -> list R, (forall j, (j < List.length (names_of w))%nat -> pnl_of w sc X j (x j)) /\
  reports m (List.length (names_of w)) q x conf dm.
(** Weights for a single portfolio, with distinct labels. *)
Definition distinct_labels (w : weights) : Prop := forall idx, labels_of w = Some idx -> NoDup idx.
Definition single (w : weights) : Prop :=
  match w with
  | WtFrame _ cols _ => List.length cols = 1%nat
  | WtSeries _ _ _ | WtVec _ _ => True
  | WtMat _ m _ => m = 1%nat
  | WtMap _ | WtOther => False
  end.
(** Every scenario column has a weight (by label, or in number). *)
Definition covers (w : weights) (sc : scen) : Prop :=
  match sc_cols sc, labels_of w with
  | Some c, Some idx => forall l, In l c -> In l idx
  | _, _ => rows_in w = sc_N sc
  end.

(** The added vector (default 0) and the multiplier (default 1) of a linear map. *)
Definition shift_vec (sh : shift) : vec := match sh with ShVec _ b => b | _ => fun _ => 0 end.
Definition scale_of (s : option R) : R := match s with Some a => a | None => 1 end.

(** ** Drawdowns *)
(** [m] is the highest value of the path up to step [t]. *)
Definition is_peak (w : list R) (t : nat) (m : R) : Prop :=
  (exists s, (s <= t)%nat /\ m = nth s w 0) /\ forall s, (s <= t)%nat -> nth s w 0 <= m.
(** [d] is the largest fall from the running peak, as a fraction of the peak. *)
Definition is_max_drawdown (w : list R) (d : R) : Prop :=
  (exists t m, (t < List.length w)%nat /\ is_peak w t m /\ d = (m - nth t w 0) / m) /\
  forall t m, (t < List.length w)%nat -> is_peak w t m -> (m - nth t w 0) / m <= d.
(** Simple return of driver [j] when the first [h] rows [rows] are accumulated as log returns. *)
Definition compound (n : nat) (X : rnd) (rows : nat -> nat) (h j : nat) : R := exp (sumn h (fun v => ProjSpec.entry n X (rows v) j)) - 1.
(** Wealth along the sampled rows after step [t], starting from one unit held in the weights [w]. *)
Definition wealth_at (n : nat) (X : rnd) (w : list R) (rows : nat -> nat) (t : nat) : R :=
  1 + sumn n (fun j => nth j w 0 * compound n X rows (S t) j).
(** The wealth after each of the [h] steps. *)
Definition wealth_path (n : nat) (X : rnd) (w : list R) (rows : nat -> nat) (h : nat) : list R := map (wealth_at n X w rows) (seq 0 h).
(** No short position, no borrowing. *)
Definition long_only (w : list R) : Prop := (forall x, In x w -> 0 <= x) /\ rsum w <= 1.
(** Number of values meeting a condition. *)
Definition how_many (P : R -> bool) (l : list R) : nat := List.length (filter P l).

(** [x] is the [q]-quantile of the values: linear interpolation between their order statistics. *)
Definition linear_quantile (l : list R) (q x : R) : Prop :=
  exists s k f, Permutation l s /\ StronglySorted Rle s /\ 0 <= f < 1 /\ INR k + f = q * (INR (List.length l) - 1) /\
    (k < List.length l)%nat /\ x = (1 - f) * nth k s 0 + f * nth (S k) s 0.

(** ** Stresses of invariants *)
(** A matrix of [T] scenarios of [K] drivers as an array. *)
Definition as_array (T K : nat) (X : mat) : rnd := mkR [T; K] (fun k => X (k / K)%nat (k mod K)%nat).
(** Driver changes over the horizon in each of [ns] simulated scenarios: the sum of the [h] rows drawn. *)
Definition horizon_sums (K : nat) (X : rnd) (ns h : nat) (idx : nat -> nat -> nat) : rnd :=
  mkR [ns; K] (fun k => sumn h (fun t => ProjSpec.entry K X (idx (k / K)%nat t) (k mod K)%nat)).
(** The labels of the P&L columns: the instruments if named, else the drivers. *)
Definition pnl_labels (inst cols : option (list string)) : option (list label) :=
  option_map (map LStr) (match inst with Some _ => inst | None => cols end).
(** Simulated P&L as scenarios. *)
Definition pnl_scen (labels : option (list label)) (ns N : nat) (a : rnd) : scen := Scen labels ns N (fun t i => ProjSpec.entry N a t i).
(** An array of [ns] rows: [N] columns, or a vector read as one column. *)
Definition table_shape (a : rnd) (ns N : nat) : Prop := r_shape a = [ns; N] \/ r_shape a = [ns] /\ N = 1%nat.
