(** What a frontier plot shows. *)
From Coq Require Import List ZArith String Permutation.
Import ListNotations.
From Verif Require Import Err RBase SortLib FrModel FrSpec PlModel.
Open Scope R_scope.
Open Scope list_scope.

(** The frontiers the caller supplied, each with the label supplied for it: keys of a mapping, entries of [labels], or none. *)
Inductive supplied : fr_arg -> option (list string) -> list (option string * pfrontier) -> Prop :=
| sup_map l labels : supplied (FMap (map (fun kv => (fst kv, Some (snd kv))) l)) labels (map (fun kv => (Some (fst kv), snd kv)) l)
| sup_one f : supplied (FOne f) None [(None, f)]
| sup_one_label f s : supplied (FOne f) (Some [s]) [(Some s, f)]
| sup_seq fs : supplied (FSeq (map Some fs)) None (map (fun f => (None, f)) fs)
| sup_seq_labels fs ls : List.length ls = List.length fs ->
    supplied (FSeq (map Some fs)) (Some ls) (combine (map Some ls) fs).

(** The first non-empty name among a supplied label, the requested risk label and the frontier's own measure. *)
Inductive named (candidates : list (option string)) (last s : string) : Prop :=
| named_first pre post : candidates = pre ++ Some s :: post -> s <> ""%string ->
    (forall c, In c pre -> c = None \/ c = Some ""%string) -> named candidates last s
| named_last : (forall c, In c candidates -> c = None \/ c = Some ""%string) -> s = last -> named candidates last s.

Definition frontier_ok (p : pfrontier) : Prop := well_formed (pf_f p) /\ (0 < size (pf_f p))%nat.

(** What is on the axes, by kind. *)
Definition curves (l : list artist) : list (string * list R * list R) :=
  flat_map (fun a => match a with Curve s x y => [(s, x, y)] | _ => [] end) l.
Definition nodes (l : list artist) : list (list R * list R) :=
  flat_map (fun a => match a with Nodes x y => [(x, y)] | _ => [] end) l.
Definition overlays (l : list artist) : list (string * list R * list R) :=
  flat_map (fun a => match a with Overlay s x y => [(s, x, y)] | _ => [] end) l.
Definition marker_texts (l : list artist) : list string :=
  flat_map (fun a => match a with Marker s _ _ => [s] | _ => [] end) l.
Definition markers (l : list artist) : list (R * R) :=
  flat_map (fun a => match a with Marker _ x y => [(x, y)] | _ => [] end) l.

(** The line of a frontier: its name, its risks in the displayed measure and its returns. *)
Definition line_of (risk : option string) (lp : option string * pfrontier) (c : string * list R * list R) : Prop :=
  let '(s, x, y) := c in
  named [fst lp; risk] (f_measure (pf_f (snd lp))) s /\ risks_for (pf_f (snd lp)) risk x /\ y = f_ret (pf_f (snd lp)).

(** Portfolio [i] is what a highlight of the frontier promises, judged by the displayed risks [x]. *)
Definition highlighted (rf : option R) (marker : string) (f : frontier_t) (x : list R) (i : nat) : Prop :=
  (marker = "min_risk"%string /\ first_best (size f) anyp (nthr x) i) \/
  (marker = "max_return"%string /\ first_best (size f) anyp (fun j => - ret_of f j) i) \/
  (marker = "tangency"%string /\ exists r, rf = Some r /\
     first_best (size f) (fun j => nthr x j <> 0) (fun j => - ((ret_of f j - r) / nthr x j)) i).
(** Records of one highlight of one frontier: one record, or none for a tangency highlight of (numerically) riskless portfolios. *)
Definition highlight_records (a : plot_args) (lp : option string * pfrontier) (marker : string) (rs : list record) : Prop :=
  let f := pf_f (snd lp) in
  exists x, risks_for f (pa_risk a) x /\
    ((exists r i, rs = [r] /\ highlighted (pa_rf a) marker f x i /\ is_portfolio f x i (rc_point r) /\ rc_index r = i /\
        named [fst lp; pa_risk a] (f_measure f) (rc_frontier r) /\ named [pa_risk a] (f_measure f) (rc_measure r) /\
        rc_meta r = match pf_meta (snd lp) with Some ms => nth_error ms i | None => None end) \/
     (rs = [] /\ marker = "tangency"%string /\ pa_rf a <> None /\ forall v, In v x -> Rabs v <= 1 / 100000000)).

(** The legend text of a record's marker: frontier, kind of portfolio, and possibly metadata in brackets. *)
Definition shown_text (keys : list string) (r : record) (t : string) : Prop :=
  exists suffix, t = (rc_frontier r ++ " - " ++ rc_type r ++ suffix)%string /\ (keys = [] \/ rc_meta r = None -> suffix = ""%string).

(** Requests that can be drawn. *)
Definition drawable (a : plot_args) (l : list (option string * pfrontier)) : Prop :=
  forall lp, In lp l ->
    ~ unknown_label (pf_f (snd lp)) (pa_risk a) /\
    (forall m, In m (pa_highlight a) -> m = "min_risk"%string \/ m = "max_return"%string \/ (m = "tangency"%string /\ pa_rf a <> None)).

(** The x label: the requested risk, else the measure common to all frontiers, else "Risk". *)
Inductive x_axis (risk : option string) (l : list (option string * pfrontier)) (s : string) : Prop :=
| x_requested : risk = Some s -> s <> ""%string -> x_axis risk l s
| x_common : (risk = None \/ risk = Some ""%string) -> l <> [] -> (forall lp, In lp l -> f_measure (pf_f (snd lp)) = s) -> x_axis risk l s
| x_mixed : (risk = None \/ risk = Some ""%string) -> ~ (l <> [] /\ exists m, forall lp, In lp l -> f_measure (pf_f (snd lp)) = m) ->
    s = "Risk"%string -> x_axis risk l s.

(** Dashed lines of a frontier: one for every requested measure that the frontier carries. *)
Inductive overlay_lines_of (name : string) (f : frontier_t) : list string -> list (string * list R * list R) -> Prop :=
| ov_nil : overlay_lines_of name f [] []
| ov_known o os r l : risks_for f (Some o) r -> overlay_lines_of name f os l ->
    overlay_lines_of name f (o :: os) (((name ++ " (" ++ o ++ ")")%string, r, f_ret f) :: l)
| ov_unknown o os l : unknown_label f (Some o) -> overlay_lines_of name f os l -> overlay_lines_of name f (o :: os) l.

(** ** Grids *)
(** The name of a frontier inside its panel, and its group. *)
Definition panel_name (lp : option string * pfrontier) : string :=
  match fst lp with
  | Some s => if String.eqb s "" then f_measure (pf_f (snd lp)) else s
  | None => f_measure (pf_f (snd lp))
  end.
Definition group_of (by_ : option (option string -> pfrontier -> string)) (lp : option string * pfrontier) : string :=
  match by_ with
  | Some g => g (fst lp) (snd lp)
  | None => if String.eqb (f_measure (pf_f (snd lp))) "" then "Risk"%string else f_measure (pf_f (snd lp))
  end.
(** The distinct strings of a list, in order of first appearance. *)
Fixpoint distinct_from (seen l : list string) : list string :=
  match l with
  | [] => []
  | k :: t => if existsb (String.eqb k) seen then distinct_from seen t else k :: distinct_from (k :: seen) t
  end.
Definition distinct (l : list string) : list string := distinct_from [] l.
(** The frontiers of a group, and those that survive when a later frontier replaces an earlier one of the same name. *)
Definition members by_ (g : string) (l : list (option string * pfrontier)) : list (option string * pfrontier) :=
  filter (fun lp => String.eqb (group_of by_ lp) g) l.
Definition survives (l : list (option string * pfrontier)) (name : string) (p : pfrontier) : Prop :=
  exists pre lp post, l = pre ++ lp :: post /\ panel_name lp = name /\ snd lp = p /\ forall q, In q post -> panel_name q <> name.

(** ** Weights *)
Definition sorts_asc (f : list (string * R) -> list (string * R)) : Prop :=
  forall l, Permutation (f l) l /\ nondecreasing (map snd (f l)).
Definition sorts_desc (f : list (string * R) -> list (string * R)) : Prop :=
  forall l, Permutation (f l) l /\ nondecreasing (rev (map snd (f l))).

(** ** Reports *)
(** A number cut off towards zero. *)
Definition cut_to (x : R) (z : Z) : Prop := 0 <= x /\ IZR z <= x < IZR z + 1 \/ x < 0 /\ IZR z - 1 < x <= IZR z.
(** The portfolio the frontier's own selector methods return for a selection key. *)
Inductive chosen (argsort : list R -> list nat) (f : frontier_t) (kw : list (string * R)) (label : option string) : string -> selection -> Prop :=
| ch_min k s : In k ["min_risk"; "minimum_risk"]%string -> min_risk f label = Ok s -> chosen argsort f kw label k s
| ch_max k s : In k ["max_return"; "maximum_return"]%string -> max_return f = Ok s -> chosen argsort f kw label k s
| ch_sharpe k s r : In k ["tangency"; "max_sharpe"; "sharpe"]%string -> (lookup "risk_free_rate" kw = Some r \/ lookup "risk_free_rate" kw = None /\ r = 0) ->
    tangency f r = Ok s -> chosen argsort f kw label k s
| ch_risk k s v : In k ["risk_target"; "max_return_subject_to_risk"]%string -> lookup "max_risk" kw = Some v -> at_risk f v label = Ok s ->
    chosen argsort f kw label k s
| ch_return k s v : In k ["return_target"; "min_risk_subject_to_return"]%string -> lookup "min_return" kw = Some v -> at_return f v label = Ok s ->
    chosen argsort f kw label k s
| ch_pct k s v : In k ["risk_percentile"; "risk_pct"; "percentile"]%string -> lookup "percentile" kw = Some v -> at_percentile argsort f v label = Ok s ->
    chosen argsort f kw label k s
| ch_match k s v : In k ["risk_match"; "risk_nearest"]%string -> lookup "target_risk" kw = Some v -> closest_risk f v label = Ok s ->
    chosen argsort f kw label k s
| ch_index k s v z i x : In k ["index"; "column"]%string -> lookup "index" kw = Some v -> risks_for f label x -> is_portfolio f x i s ->
    cut_to v z -> (z = Z.of_nat i \/ z = Z.of_nat i - Z.of_nat (size f))%Z -> chosen argsort f kw label k s.

(** ** Parameters along a frontier *)
(** The metadata holds a finite number under [param] for every portfolio: the list [vs]. *)
Definition parameters (param : string) (ms : list meta) (vs : list R) : Prop :=
  Forall2 (fun m v => lookup param m = Some (MNum v)) ms vs.
(** [n] evenly spaced values from 0 to 1. *)
Definition evenly_spaced (n : nat) (vs : list R) : Prop :=
  List.length vs = n /\ nthr vs 0 = 0 /\ ((1 < n)%nat -> nthr vs (n - 1) = 1) /\
  forall i, (S i < n)%nat -> nthr vs (S i) - nthr vs i = 1 / (INR n - 1).

(** How many of [n] bars [top_n] keeps: pandas reads a negative number as "all but". *)
Definition kept (n : nat) (top : option Z) : nat :=
  match top with
  | None => n
  | Some k => if (k <? 0)%Z then (n - Z.to_nat (- k))%nat else Nat.min n (Z.to_nat k)
  end.
(** Bars in drawing order: horizontal ones from the smallest up, vertical ones from the largest down. *)
Definition drawing_order (kind : bar_kind) (l : list (string * R)) : Prop :=
  match kind with BarH => nondecreasing (map snd l) | Bar => nondecreasing (rev (map snd l)) end.
