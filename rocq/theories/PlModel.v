(** Model of pyvallocation/plotting.py, part 1: frontier plots.

    A plot is the list of what is drawn (the data arguments of [Axes.plot] and [Axes.scatter], with their legend
    labels) and the axis labels.  Colours, sizes and other styling keywords are not modelled, nor is what was
    drawn before an exception.  Risks and returns are finite reals, as in FrModel. *)
From Coq Require Import List ZArith String.
Import ListNotations.
From Verif Require Import Err RBase SortLib FrModel.
Open Scope R_scope.
Open Scope list_scope.

(** portfolioapi.py:259-260 [metadata]: one dictionary per portfolio.  [MNan] is any float that is not finite. *)
Inductive mval := MNum (x : R) | MNan | MStr (s : string) | MNone.
Definition meta := list (string * mval).
(** A PortfolioFrontier with its metadata. *)
Record pfrontier := mkPF { pf_f : frontier_t; pf_meta : option (list meta) }.

(** plotting.py:45-80 [_normalize_frontiers]: an element that is not a PortfolioFrontier is [None].  Keys of a mapping
    are strings. *)
Inductive fr_arg := FMap (l : list (string * option pfrontier)) | FOne (f : pfrontier) | FSeq (l : list (option pfrontier)).
Definition as_frontier (x : option pfrontier) : res pfrontier := match x with Some f => Ok f | None => Err TypeError end.
Definition normalize_frontiers (fs : fr_arg) (labels : option (list string)) : res (list (option string * pfrontier)) :=
  match fs with
  | FMap l => mapM (fun kv => let* f := as_frontier (snd kv) in Ok (Some (fst kv), f)) l               (* 58-64: labels ignored *)
  | _ =>
      let items := match fs with FOne f => [Some f] | FSeq l => l | FMap _ => [] end in                (* 66-69 *)
      let* ls := match labels with
                 | None => Ok (map (fun _ => None) items)
                 | Some l => if Nat.eqb (List.length l) (List.length items) then Ok (map Some l) else Err ValueError   (* 71-72 *)
                 end in
      mapM (fun p => let* f := as_frontier (snd p) in Ok (fst p, f)) (combine ls items)                (* 74-80 *)
  end.

(** Python's [a or b] on an optional string. *)
Definition or_str (a : option string) (b : string) : string :=
  match a with Some s => if String.eqb s "" then b else s | None => b end.

(** plotting.py:173-226 [_resolve_highlight]; [pct] renders [f"{x:.2%}"].  The weights, labels, return and risk of the
    point form a [selection]. *)
Definition resolve_highlight (pct : R -> string) (f : frontier_t) (risks : list R) (rf : option R) (marker : string)
  : res (option (string * selection * nat)) :=
  if String.eqb marker "min_risk" then
    let* i := argmin risks in Ok (Some ("Min Risk"%string, pick f risks i, i))                          (* 191-196 *)
  else if String.eqb marker "max_return" then
    let* i := argmax (f_ret f) in Ok (Some ("Max Return"%string, pick f risks i, i))                    (* 197-202 *)
  else if String.eqb marker "tangency" then                                                             (* 203-220 *)
    match rf with
    | None => Err ValueError
    | Some r =>
        if forallb (fun x => risclose x 0) risks then Ok None
        else let ratios := map2 (fun ret x => if Reqb x 0 then None else Some ((ret - r) / x)) (f_ret f) risks in
             let* i := argbest better_opt ratios in
             Ok (Some (("Tangency (rf=" ++ pct r ++ ")")%string, pick f risks i, i))
    end
  else Err ValueError.                                                                                  (* 221-222 *)

(** What is drawn. *)
Inductive artist :=
| Curve (label : string) (x y : list R)       (* ax.plot: solid line *)
| Nodes (x y : list R)                        (* ax.scatter of every portfolio *)
| Overlay (label : string) (x y : list R)     (* ax.plot: dashed line *)
| Marker (label : string) (x y : R).          (* ax.scatter of one portfolio *)
(** plotting.py:372-383: an entry of [ax._frontier_highlights]. *)
Record record := mkRec {
  rc_frontier : string; rc_type : string; rc_point : selection; rc_measure : string; rc_index : nat; rc_meta : option meta }.
Record plot := mkPlot { pl_artists : list artist; pl_x : string; pl_y : string; pl_records : list record }.

(** Keyword arguments of [plot_frontiers] that carry data. *)
Record plot_args := mkPA {
  pa_highlight : list string; pa_rf : option R; pa_points : bool; pa_overlay : list string; pa_risk : option string;
  pa_return : string; pa_keys : list string }.

(** plotting.py:356-369: the metadata tokens of a highlight label; [fmt] is [metadata_value_formatter]. *)
Definition tokens (fmt : string -> mval -> string) (keys : list string) (m : option meta) : list string :=
  match m with
  | None => []
  | Some m => flat_map (fun k => match lookup k m with
                                 | None | Some MNone => []
                                 | Some v => let s := fmt k v in if String.eqb s "" then [] else [s]
                                 end) keys
  end.
Definition highlight_label (fmt : string -> mval -> string) (keys : list string) (base : string) (m : option meta) : string :=
  match tokens fmt keys m with
  | [] => base
  | ts => (base ++ " (" ++ String.concat ", " ts ++ ")")%string
  end.

(** plotting.py:344-346: [frontier.metadata[idx] if frontier.metadata and idx < len(frontier.metadata) else None]. *)
Definition meta_at (p : pfrontier) (i : nat) : option meta :=
  match pf_meta p with Some l => nth_error l i | None => None end.

(** plotting.py:334-383: one highlight. *)
Definition draw_highlight pct fmt (a : plot_args) (p : pfrontier) (label : string) (risks : list R) (marker : string)
  : res (list artist * list record) :=
  let f := pf_f p in
  let* r := resolve_highlight pct f risks (pa_rf a) marker in
  match r with
  | None => Ok ([], [])
  | Some (name, s, i) =>
      let m := meta_at p i in
      let base := (label ++ " - " ++ name)%string in
      Ok ([Marker (highlight_label fmt (pa_keys a) base m) (s_risk s) (s_return s)],
          [mkRec label name s (or_str (pa_risk a) (f_measure f)) i m])
  end.

(** plotting.py:320-332: overlays; an unknown label is skipped. *)
Definition draw_overlay (f : frontier_t) (label overlay : string) : list artist :=
  match risk_vector f (Some overlay) with
  | Ok r => [Overlay (label ++ " (" ++ overlay ++ ")")%string r (f_ret f)]
  | Err _ => []
  end.

(** plotting.py:313-383: one frontier. *)
Definition draw_frontier pct fmt (a : plot_args) (lp : option string * pfrontier) : res (list artist * list record) :=
  let '(supplied, p) := lp in
  let f := pf_f p in
  let* risks := risk_vector f (pa_risk a) in
  let label := or_str supplied (or_str (pa_risk a) (f_measure f)) in
  let* hs := mapM (draw_highlight pct fmt a p label risks) (pa_highlight a) in
  Ok (Curve label risks (f_ret f) :: (if pa_points a then [Nodes risks (f_ret f)] else [])
        ++ flat_map (draw_overlay f label) (pa_overlay a) ++ flat_map fst hs,
      flat_map snd hs).

(** plotting.py:385-389: the x label. *)
Definition x_label (a : plot_args) (l : list (option string * pfrontier)) : string :=
  or_str (pa_risk a)
    (match map (fun lp => f_measure (pf_f (snd lp))) l with
     | [] => "Risk"%string
     | m :: ms => if forallb (String.eqb m) ms then m else "Risk"%string
     end).

(** plotting.py:229-405 [plot_frontiers]. *)
Definition plot_normalized pct fmt (a : plot_args) (l : list (option string * pfrontier)) : res plot :=
  let* ds := mapM (draw_frontier pct fmt a) l in
  Ok (mkPlot (flat_map fst ds) (x_label a l) (pa_return a) (flat_map snd ds)).
Definition plot_frontiers pct fmt (fs : fr_arg) (labels : option (list string)) (a : plot_args) : res plot :=
  let* l := normalize_frontiers fs labels in plot_normalized pct fmt a l.

(** An OrderedDict: assignment keeps the position of a key already present. *)
Fixpoint oset {A} (l : list (string * A)) (k : string) (v : A) : list (string * A) :=
  match l with
  | [] => [(k, v)]
  | (k', v') :: t => if String.eqb k' k then (k, v) :: t else (k', v') :: oset t k v
  end.

(** plotting.py:445-451: frontiers by group. *)
Definition group_key (by_ : option (option string -> pfrontier -> string)) (lp : option string * pfrontier) : string :=
  match by_ with
  | Some g => g (fst lp) (snd lp)
  | None => or_str (Some (f_measure (pf_f (snd lp)))) "Risk"
  end.
Definition add_to_groups by_ (G : list (string * list (string * pfrontier))) (lp : option string * pfrontier)
  : list (string * list (string * pfrontier)) :=
  let key := group_key by_ lp in
  let bucket := match lookup key G with Some b => b | None => [] end in
  oset G key (oset bucket (or_str (fst lp) (f_measure (pf_f (snd lp)))) (snd lp)).
Definition groups by_ (l : list (option string * pfrontier)) := fold_left (add_to_groups by_) l [].

(** plotting.py:462-470: [None] is an unknown policy. *)
Definition show_legend (policy : string) (legend : bool) (n : nat) : option bool :=
  if String.eqb policy "auto" then Some (legend && Nat.eqb n 1)
  else if String.eqb policy "none" then Some false
  else if String.eqb policy "each" then Some legend
  else None.

(** A panel of the grid: its title, what it shows and whether it has a legend. *)
Record panel := mkPanel { pn_title : string; pn_plot : plot; pn_legend : bool }.

(** plotting.py:408-486 [plot_frontiers_grid]: the panels and the number of blank axes.  [plt.subplots] raises
    ValueError unless both dimensions are positive; [zip] stops at the shorter list. *)
Definition plot_frontiers_grid pct fmt (fs : fr_arg) by_ (labels : option (list string)) (cols : option Z) (legend : bool)
  (policy : string) (a : plot_args) : res (list panel * nat) :=
  let* l := normalize_frontiers fs labels in
  let G := groups by_ l in
  match G with
  | [] => Err ValueError                                                                                (* 453-454 *)
  | _ =>
      let n := Z.of_nat (List.length G) in
      let c := match cols with Some c => if (c =? 0)%Z then n else c | None => n end in                 (* 456 *)
      let r := ((n + c - 1) / c)%Z in                                                                   (* 457 *)
      if ((r <=? 0) || (c <=? 0))%Z then Err ValueError
      else
        let axes := Z.to_nat (r * c) in
        let* ps := mapM (fun g => match show_legend policy legend (List.length G) with
                                  | None => Err ValueError                                              (* 469-470 *)
                                  | Some s =>
                                      let* p := plot_frontiers pct fmt (FMap (map (fun kv => (fst kv, Some (snd kv))) (snd g))) None a in
                                      Ok (mkPanel (fst g) p s)
                                  end) (firstn axes G) in
        Ok (ps, (axes - List.length G)%nat)
  end.

(** plotting.py:524: [tail(k)] and [head(k)] of pandas. *)
Definition tail_n {A} (k : Z) (l : list A) : list A :=
  if (k <? 0)%Z then skipn (Z.to_nat (- k)) l else skipn (List.length l - Z.to_nat k) l.
Definition head_n {A} (k : Z) (l : list A) : list A :=
  if (k <? 0)%Z then firstn (List.length l - Z.to_nat (- k)) l else firstn (Z.to_nat k) l.

(** plotting.py:489-545 [plot_weights] for the two bar kinds.  [sort_asc] and [sort_desc] are [sort_values] (pandas'
    default sort is not stable).  The result lists the bars of each drawn column in drawing order, and which axes get
    the percentage formatter; the tick labels of an axis with a formatter are numbers. *)
Inductive bar_kind := BarH | Bar.
Inductive weights_arg := WSeries (l : list (string * R)) | WFrame (index : list string) (cols : list (string * list R)) | WOther.
Record bars := mkBars { b_cols : list (list (string * R)); b_pct_x : bool; b_pct_y : bool }.
Definition plot_weights (sort_asc sort_desc : list (string * R) -> list (string * R)) (w : weights_arg) (top : option Z)
  (kind : bar_kind) (percent : bool) : res bars :=
  let* cs := match w with
             | WSeries l =>
                 Ok [match kind, top with
                     | BarH, None => sort_asc l
                     | BarH, Some k => tail_n k (sort_asc l)
                     | Bar, None => sort_desc l
                     | Bar, Some k => head_n k (sort_desc l)
                     end]                                                                               (* 521-525 *)
             | WFrame ix cols => Ok (map (fun c => combine ix (snd c)) cols)                            (* 526-528: [top_n] unused *)
             | WOther => Err TypeError                                                                  (* 529-530 *)
             end in
  Ok (mkBars cs percent (percent && match kind with Bar => true | BarH => false end)).                  (* 532-538 *)

(** plotting.py:581, 635, 693: [np.array([meta.get(param) ...], dtype=float)]; a string raises (numbers
    written as strings are not modelled). *)
Definition param_values (param : string) (ms : list meta) : res (list (option R)) :=
  mapM (fun m => match lookup param m with
                 | Some (MNum x) => Ok (Some x)
                 | Some (MStr _) => Err ValueError
                 | _ => Ok None
                 end) ms.
Fixpoint all_finite (l : list (option R)) : option (list R) :=
  match l with
  | [] => Some []
  | None :: _ => None
  | Some x :: t => option_map (cons x) (all_finite t)
  end.
(** [np.linspace(0.0, 1.0, n)]. *)
Definition unit_grid (n : nat) : list R :=
  match n with 1%nat => [0] | _ => map (fun i => INR i / (INR n - 1)) (seq 0 n) end.

(** plotting.py:548-609 [plot_robust_path]: points with their colour values, then the lines.  Metadata of another length
    than the frontier raises (three or four values may instead be read as one colour; not modelled). *)
Record path_plot := mkPath { pp_points : list (R * R * R); pp_lines : list artist; pp_x : string }.
Definition zip3 (a b c : list R) : list (R * R * R) := combine (combine a b) c.
Definition plot_robust_path (p : pfrontier) (param : string) (risk_label overlay : option string) (show_line : bool) : res path_plot :=
  let f := pf_f p in
  let* risks := risk_vector f risk_label in
  let* vs := match pf_meta p with
             | None | Some [] => Ok None
             | Some ms => let* l := param_values param ms in Ok (all_finite l)
             end in
  let values := match vs with Some v => v | None => unit_grid (List.length risks) end in
  if negb (Nat.eqb (List.length values) (List.length risks)) then Err ValueError
  else
    Ok (mkPath (zip3 risks (f_ret f) values)
         ((if show_line then [Curve "" risks (f_ret f)] else [])
            ++ match overlay with None => [] | Some o => match risk_vector f (Some o) with Ok r => [Overlay "" r (f_ret f)] | Err _ => [] end end)
         (or_str risk_label (f_measure f))).

(** plotting.py:612-669 [plot_param_impact]: the two lines, parameter against return and against risk.  An [ax] argument
    must be unpacked into two axes and have an attribute [figure]: a pair has no such attribute, a single axis does not unpack. *)
Inductive ax_arg := NoAx | AxPair | AxOne.
Definition index_all {A} (l : list A) (o : list nat) (d : A) : res (list A) :=
  if forallb (fun i => Nat.ltb i (List.length l)) o then Ok (take d l o) else Err IndexError.
Definition plot_param_impact (argsort : list R -> list nat) (p : pfrontier) (param : string) (risk_label : option string) (ax : ax_arg)
  : res (list (R * R) * list (R * R)) :=
  let f := pf_f p in
  match pf_meta p with
  | None => Err ValueError
  | Some ms =>
      let* l := param_values param ms in
      match all_finite l with
      | None => Err ValueError
      | Some v =>
          let o := argsort v in
          let v' := take 0 v o in
          let* rets := index_all (f_ret f) o 0 in
          let* rv := risk_vector f risk_label in
          let* risks := index_all rv o 0 in
          match ax with
          | NoAx => Ok (combine v' rets, combine v' risks)
          | AxPair => Err AttributeError
          | AxOne => Err TypeError
          end
      end
  end.

(** plotting.py:672-703 [plot_robust_surface]: the points (parameter, risk, return).  Lengths that differ do not
    broadcast (a single value would; not modelled). *)
Definition plot_robust_surface (p : pfrontier) (param : string) (risk_label : option string) : res (list (R * R * R)) :=
  let f := pf_f p in
  match pf_meta p with
  | None => Err ValueError
  | Some ms =>
      let* l := param_values param ms in
      match all_finite l with
      | None => Err ValueError
      | Some v =>
          let* rv := risk_vector f risk_label in
          if Nat.eqb (List.length v) (List.length rv) then Ok (zip3 v rv (f_ret f)) else Err ValueError
      end
  end.

(** plotting.py:902-1004 [plot_frontier_report].  [selection_kwargs] holds numbers; [pop] of an absent key is a KeyError. *)
Definition kw_num (kw : list (string * R)) (k : string) : res R :=
  match lookup k kw with Some x => Ok x | None => Err KeyError end.
Definition to_int (x : R) : Z := if Rleb 0 x then Int_part x else (- Int_part (- x))%Z.
Definition report_select argsort (f : frontier_t) (key : string) (kw : list (string * R)) (label : option string) : res selection :=
  let is l := existsb (String.eqb key) l in
  if is ["min_risk"; "minimum_risk"]%string then min_risk f label                                       (* 944-947 *)
  else if is ["max_return"; "maximum_return"]%string then max_return f                                  (* 948-949 *)
  else if is ["tangency"; "max_sharpe"; "sharpe"]%string then
    tangency f (match lookup "risk_free_rate" kw with Some x => x | None => 0 end)                      (* 950-952 *)
  else if is ["risk_target"; "max_return_subject_to_risk"]%string then let* x := kw_num kw "max_risk" in at_risk f x label
  else if is ["return_target"; "min_risk_subject_to_return"]%string then let* x := kw_num kw "min_return" in at_return f x label
  else if is ["risk_percentile"; "risk_pct"; "percentile"]%string then let* x := kw_num kw "percentile" in at_percentile argsort f x label
  else if is ["risk_match"; "risk_nearest"]%string then let* x := kw_num kw "target_risk" in closest_risk f x label
  else if is ["index"; "column"]%string then                                                            (* 973-977 *)
    let* x := kw_num kw "index" in
    let* i := np_index (List.length (f_cols f)) (to_int x) in
    let* risks := risk_vector f label in
    Ok (pick f risks i)
  else Err ValueError.
(** The report: the frontier panel, the black dot and the weights panel. *)
Record report := mkRep { rp_plot : plot; rp_dot : option (R * R); rp_bars : bars }.
Definition labelled_weights (rng : nat -> string) (s : selection) : list (string * R) :=
  combine (match s_names s with Some l => l | None => map rng (seq 0 (List.length (s_weights s))) end) (s_weights s).
Definition plot_frontier_report argsort sort_asc sort_desc pct fmt (lower : string -> string) (rng : nat -> string) (p : pfrontier)
  (selection : string) (kw : list (string * R)) (risk_label : option string) (overlay : list string) (points : bool)
  (weights : option weights_arg) : res report :=
  let f := pf_f p in
  let key := lower selection in
  let* (w, dot, rf) :=
    match weights with
    | Some w => Ok (w, None, lookup "risk_free_rate" kw)
    | None =>
        let* s := report_select argsort f key kw risk_label in
        (* 951: [pop] removes the rate from the dictionary *)
        let popped := existsb (String.eqb key) ["tangency"; "max_sharpe"; "sharpe"]%string in
        Ok (WSeries (labelled_weights rng s), Some (s_risk s, s_return s), if popped then None else lookup "risk_free_rate" kw)
    end in
  let hl := if existsb (String.eqb key) ["min_risk"; "max_return"; "tangency"]%string then [key] else [] in
  let* pl := plot_frontiers pct fmt (FOne p) None (mkPA hl rf points overlay risk_label "Expected Return" []) in
  let* b := plot_weights sort_asc sort_desc w None BarH true in
  Ok (mkRep pl (match hl with [] => dot | _ => None end) b).
