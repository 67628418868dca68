(** Model of the frontier container and its selectors (portfolioapi.py:243-692), of the post-processing of
    [cvar_frontier] (portfolioapi.py:1333-1423) and of the string selectors of ensembles.py:934-1106.

    The weight matrix is the list of its columns; risks and returns are finite reals (NaN is not
    modelled).  [argsort] is a parameter: any sorting permutation. *)
From Coq Require Import String.
From Verif Require Import RBase SortLib.
Open Scope R_scope.

(** portfolioapi.py:243-271: the dataclass.  A dict is an association list, first binding wins. *)
Record frontier_t := mkFr {
  f_n : nat; f_cols : list (list R); f_ret : list R; f_risk : list R; f_measure : string;
  f_names : option (list string); f_alt : list (string * list R) }.

(** portfolioapi.py:273-283 [__post_init__]. *)
Definition make_frontier (n : nat) (cols : list (list R)) (ret risk : list R) (measure : string)
  (names : option (list string)) (alt : list (string * list R)) : res frontier_t :=
  let M := List.length ret in
  guard (List.length cols =? M)%nat ValueError
  (guard (List.length risk =? M)%nat ValueError
  (guard (match names with Some l => (List.length l =? n)%nat | None => true end) ValueError
  (guard (forallb (fun kv => (List.length (snd kv) =? M)%nat) alt) ValueError
     (Ok (mkFr n cols ret risk measure names alt))))).

Fixpoint lookup {A} (k : string) (l : list (string * A)) : option A :=
  match l with
  | [] => None
  | (k', v) :: l' => if String.eqb k k' then Some v else lookup k l'
  end.

(** portfolioapi.py:299-316 [_risk_vector]. *)
Definition risk_vector (f : frontier_t) (label : option string) : res (list R) :=
  match label with
  | None => Ok (f_risk f)
  | Some l => if String.eqb l (f_measure f) then Ok (f_risk f)
              else match lookup l (f_alt f) with Some v => Ok v | None => Err KeyError end
  end.

(** [np.argmin]/[np.argmax]: the first index of the best value; ValueError on an empty array. *)
Fixpoint argbest_from {A} (better : A -> A -> bool) (best : A) (bi i : nat) (l : list A) : nat :=
  match l with
  | [] => bi
  | x :: xs => if better x best then argbest_from better x i (S i) xs
               else argbest_from better best bi (S i) xs
  end.
Definition argbest {A} (better : A -> A -> bool) (l : list A) : res nat :=
  match l with [] => Err ValueError | x :: xs => Ok (argbest_from better x 0 1 xs) end.
Definition argmin (l : list R) : res nat := argbest Rltb l.
Definition argmax (l : list R) : res nat := argbest (fun x b => Rltb b x) l.

(** What every selector returns: the column (a Series indexed by the asset names when there are
    any), its return and its risk. *)
Record selection := mkSel { s_names : option (list string); s_weights : list R; s_return : R; s_risk : R }.
Definition pick (f : frontier_t) (risks : list R) (i : nat) : selection :=
  mkSel (f_names f) (nth i (f_cols f) []) (nth i (f_ret f) 0) (nth i risks 0).

(** portfolioapi.py:405-428 [min_risk]. *)
Definition min_risk (f : frontier_t) (label : option string) : res selection :=
  let* risks := risk_vector f label in
  let* i := argmin risks in Ok (pick f risks i).

(** portfolioapi.py:430-443 [max_return]. *)
Definition max_return (f : frontier_t) : res selection :=
  let* i := argmax (f_ret f) in Ok (pick f (f_risk f) i).

(** portfolioapi.py:445-471 [tangency]; [None] is the -inf put in place of a ratio that is not
    finite. *)
Definition better_opt (x b : option R) : bool :=
  match x, b with
  | Some x, Some b => Rltb b x
  | Some _, None => true
  | None, _ => false
  end.
Definition tangency (f : frontier_t) (rf : R) : res selection :=
  if forallb (fun r => risclose r 0) (f_risk f) then Err InfeasibleError
  else
    let ratios := map2 (fun ret r => if Reqb r 0 then None else Some ((ret - rf) / r)) (f_ret f) (f_risk f) in
    let* i := argbest better_opt ratios in Ok (pick f (f_risk f) i).

(** [np.where(cond)[0]]. *)
Definition where_idx (c : R -> bool) (l : list R) : list nat :=
  filter (fun i => c (nth i l 0)) (seq 0 (List.length l)).

(** portfolioapi.py:473-510 [at_risk]. *)
Definition at_risk (f : frontier_t) (max_risk : R) (label : option string) : res selection :=
  let* risks := risk_vector f label in
  let idx := where_idx (fun r => Rleb r max_risk) risks in
  match idx with
  | [] => Err InfeasibleError
  | _ => let* k := argmax (take 0 (f_ret f) idx) in Ok (pick f risks (nth k idx 0%nat))
  end.

(** portfolioapi.py:512-550 [at_return]. *)
Definition at_return (f : frontier_t) (min_return : R) (label : option string) : res selection :=
  let idx := where_idx (fun r => Rleb min_return r) (f_ret f) in
  match idx with
  | [] => Err InfeasibleError
  | _ => let* risks := risk_vector f label in
         let* k := argmin (take 0 risks idx) in Ok (pick f risks (nth k idx 0%nat))
  end.

(** portfolioapi.py:552-569 [closest_risk]. *)
Definition closest_risk (f : frontier_t) (target : R) (label : option string) : res selection :=
  let* risks := risk_vector f label in
  let* i := argmin (map (fun r => Rabs (r - target)) risks) in Ok (pick f risks i).

(** portfolioapi.py:571-586 [risk_percentiles]: [ranks[order] = arange]. *)
Fixpoint index_of (i : nat) (o : list nat) : nat :=
  match o with [] => 0%nat | j :: o' => if (i =? j)%nat then 0%nat else S (index_of i o') end.
Definition percentiles_of (argsort : list R -> list nat) (risks : list R) : list R :=
  match risks with
  | [_] => [0]
  | _ => let order := argsort risks in
         map (fun i => INR (index_of i order) / (INR (List.length risks) - 1)) (seq 0 (List.length risks))
  end.
Definition risk_percentiles argsort (f : frontier_t) (label : option string) : res (list R) :=
  let* risks := risk_vector f label in Ok (percentiles_of argsort risks).

(** portfolioapi.py:588-605 [_normalize_percentile]. *)
Definition normalize_percentile (p : R) : res R :=
  if Rltb 1 p then
    if Rltb 100 p then Err ValueError
    else let q := p / 100 in if Rltb q 0 || Rltb 1 q then Err ValueError else Ok q
  else if Rltb p 0 || Rltb 1 p then Err ValueError else Ok p.

(** portfolioapi.py:607-624 [index_at_risk_percentile]. *)
Definition index_at_risk_percentile argsort (f : frontier_t) (p : R) (label : option string) : res nat :=
  let* q := normalize_percentile p in
  let* ps := risk_percentiles argsort f label in
  argmin (map (fun x => Rabs (x - q)) ps).

(** portfolioapi.py:626-647 [at_percentile]: normalises, then the index function normalises again. *)
Definition at_percentile argsort (f : frontier_t) (p : R) (label : option string) : res selection :=
  let* q := normalize_percentile p in
  let* i := index_at_risk_percentile argsort f q label in
  let* risks := risk_vector f label in
  Ok (pick f risks i).

(** numpy indexing along an axis of length [M]: negative indices count from the end. *)
Definition np_index (M : nat) (z : Z) : res nat :=
  if ((z <? - Z.of_nat M) || (Z.of_nat M <=? z))%Z then Err IndexError
  else Ok (Z.to_nat (if (z <? 0)%Z then z + Z.of_nat M else z)%Z).

(** portfolioapi.py:333-383 [_select_weights] and [to_frame]: the columns and their labels
    (default labels: the requested indices as given). *)
Definition select_weights (f : frontier_t) (columns : option (list Z)) : res (list (list R)) :=
  match columns with
  | None => Ok (f_cols f)
  | Some zs => mapM (fun z => let* i := np_index (List.length (f_cols f)) z in Ok (nth i (f_cols f) [])) zs
  end.
Inductive col_label := LInt (z : Z) | LStr (s : string).
Definition to_frame (f : frontier_t) (columns : option (list Z)) (labels : option (list string))
  : res (option (list string) * list (col_label * list R)) :=
  let* m := select_weights f columns in
  let* ls := match labels with
             | Some l => guard (List.length l =? List.length m)%nat ValueError (Ok (map LStr l))
             | None => match columns with
                       | Some zs => Ok (map LInt zs)
                       | None => Ok (map (fun i => LInt (Z.of_nat i)) (seq 0 (List.length m)))
                       end
             end in
  Ok (f_names f, combine ls m).

(** portfolioapi.py:649-692 [as_discrete_allocation]: the labelled weights handed to the allocator
    (negative columns are rejected here, unlike in [to_frame]).  [asset_i] renders "Asset_{i}". *)
Definition discrete_column (asset_i : nat -> string) (f : frontier_t) (column : Z) : res (list (string * R)) :=
  if ((column <? 0) || (Z.of_nat (List.length (f_cols f)) <=? column))%Z then Err IndexError
  else let w := nth (Z.to_nat column) (f_cols f) [] in
       Ok (combine (match f_names f with Some l => l | None => map asset_i (seq 0 (List.length w)) end) w).

(** * Post-processing of the CVaR frontier *)

(** [np.maximum.accumulate], portfolioapi.py:1407. *)
Fixpoint cummax_from (m : R) (l : list R) : list R :=
  match l with [] => [] | x :: xs => Rmax m x :: cummax_from (Rmax m x) xs end.
Definition cummax (l : list R) : list R :=
  match l with [] => [] | x :: xs => x :: cummax_from x xs end.

(** portfolioapi.py:1397-1408 [_lower_convex_envelope]; the stack is kept top first. *)
Definition cross (x y : nat -> R) (i1 i2 i : nat) : R :=
  (x i2 - x i1) * (y i - y i1) - (y i2 - y i1) * (x i - x i1).
Fixpoint pop_while (eps : R) (x y : nat -> R) (i : nat) (st : list nat) : list nat :=
  match st with
  | i2 :: ((i1 :: _) as rest) => if Rleb (cross x y i1 i2 i) eps then pop_while eps x y i rest else st
  | _ => st
  end.
Definition envelope (eps : R) (x y : nat -> R) (n : nat) : list nat :=
  rev (fold_left (fun st i => i :: pop_while eps x y i st) (seq 0 n) []).

(** [np.interp] on nodes with non-decreasing abscissae: the last segment whose left end is at most
    the query; constant outside. *)
Fixpoint interp (pts : list (R * R)) (q : R) : R :=
  match pts with
  | [] => 0
  | [(_, y)] => y
  | (x1, y1) :: (((x2, y2) :: _) as rest) =>
      if Rltb q x1 then y1
      else if Rltb q x2 then y1 + (y2 - y1) / (x2 - x1) * (q - x1)
      else interp rest q
  end.

Definition env_eps : R := 1 / 1000000000000.

(** portfolioapi.py:1392-1415: monotone, then convex. *)
Definition enforce_convex (ret risk : list R) : list R :=
  let risk := cummax risk in
  let x := fun i => nth i ret 0 in let y := fun i => nth i risk 0 in
  let keep := envelope env_eps x y (List.length ret) in
  if ((2 <=? List.length keep) && (List.length keep <? List.length ret))%nat
  then map (interp (map (fun i => (x i, y i)) keep)) ret
  else risk.

(** portfolioapi.py:1375-1423: sort the columns by return, keep the raw risks and volatilities as
    alternates, and correct the primary risks. *)
Definition cvar_post (argsort : list R -> list nat) (enforce : bool) (cols : list (list R))
  (ret cvar vols : list R) : list (list R) * list R * list R * list R * list R :=
  let risks := map Rabs cvar in
  let order := argsort ret in
  let ret' := take 0 ret order in
  let raw := take 0 risks order in
  let vols' := take 0 vols order in
  (take [] cols order, ret', if enforce then enforce_convex ret' raw else raw, vols', raw).

(** * String selectors, ensembles.py:934-1106 *)
Definition contains (pat s : string) : bool :=
  match String.index 0 pat s with Some _ => true | None => false end.

Inductive selector :=
| SelTangency (rf : R)
| SelMinRisk (label : option string)
| SelMaxReturn
| SelRiskTarget (max_risk : R) (label : option string)
| SelRiskMatch (target : R) (label : option string)
| SelPercentile (p : R) (label : option string)
| SelColumn (z : Z).

(** The label used by the risk-based selectors: the volatility overlay of robust frontiers. *)
Definition resolve_label (f : frontier_t) (label : option string) : option string :=
  match label with
  | Some l => Some l
  | None => match lookup "Volatility" (f_alt f) with
            | Some _ => if contains "Estimation Risk" (f_measure f) then Some "Volatility"%string else None
            | None => None
            end
  end.

(** One call of the closure: the weights, and the closure's state afterwards.  The min-risk closure pops
    "risk_label" from its captured keyword dict when it runs (line 994). *)
Definition run_selector argsort (s : selector) (f : frontier_t) : selector * res (list R) :=
  match s with
  | SelTangency rf => (s, let* r := tangency f rf in Ok (s_weights r))
  | SelMinRisk label => (SelMinRisk None, let* r := min_risk f label in Ok (s_weights r))
  | SelMaxReturn => (s, let* r := max_return f in Ok (s_weights r))
  | SelRiskTarget m label => (s, let* r := at_risk f m (resolve_label f label) in Ok (s_weights r))
  | SelRiskMatch t label => (s, let* r := closest_risk f t (resolve_label f label) in Ok (s_weights r))
  | SelPercentile p label => (s, let* r := at_percentile argsort f p (resolve_label f label) in Ok (s_weights r))
  | SelColumn z => (s, let* i := np_index (List.length (f_cols f)) z in Ok (nth i (f_cols f) []))
  end.
