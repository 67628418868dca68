(** Theorems for frontier plots, weight bars, parameter plots and reports (C138 - C144).  [pct] and [fmt] render numbers
    in legend labels, [lower] is [str.lower], [rng] renders a position; all are arbitrary. *)
From Coq Require Import List ZArith String Lia Lra Permutation.
Import ListNotations.
From Verif Require Import Err RBase SortLib FrModel FrSpec FrProofs FrProofs2 FrProperties PlModel PlSpec PlProofs PlProofs2 PlProofs3 PlProofs4.
Open Scope R_scope.
Open Scope list_scope.

(** Examples use the three-portfolio frontier [ex_fr] with and without metadata. *)
Definition ex_p : pfrontier := mkPF ex_fr (Some [[("radius"%string, MNum 2)]; [("radius"%string, MNum 1)]; [("radius"%string, MNum 0)]]).
Example ex_p_ok : frontier_ok ex_p. Proof. exact ex_fr_wf. Qed.
Definition ex_args : plot_args := mkPA ["min_risk"; "max_return"]%string None true ["Volatility"]%string None "Expected Return" [].
Definition no_pct (_ : R) : string := ""%string.
Definition no_fmt (_ : string) (_ : mval) : string := ""%string.

(** * C138 *)
(** plot_frontiers draws, for every frontier supplied and in order, one line: its risks in the displayed measure against its
    returns, named by the supplied label, else the displayed measure; the nodes are the same points; one dashed line for
    every overlay measure the frontier carries; the x label is the displayed measure, the common one, or "Risk". *)
Theorem plot_shows_frontiers : forall pct fmt fs labels a pl,
  (forall l, supplied fs labels l -> forall lp, In lp l -> frontier_ok (snd lp)) ->
  plot_frontiers pct fmt fs labels a = Ok pl ->
  exists l, supplied fs labels l /\
    Forall2 (line_of (pa_risk a)) l (curves (pl_artists pl)) /\
    nodes (pl_artists pl) = (if pa_points a then map (fun c => (snd (fst c), snd c)) (curves (pl_artists pl)) else []) /\
    (exists os, Forall2 (fun lp o => exists name, named [fst lp; pa_risk a] (f_measure (pf_f (snd lp))) name /\
                                       overlay_lines_of name (pf_f (snd lp)) (pa_overlay a) o) l os /\
       overlays (pl_artists pl) = List.concat os) /\
    x_axis (pa_risk a) l (pl_x pl) /\ pl_y pl = pa_return a.
Proof.
  intros pct fmt fs labels a pl F H. unfold plot_frontiers, plot_normalized in H. apply bind_ok in H as (l & El & H). apply normalize_iff in El.
  apply bind_ok in H as (ds & Ed & H). injection H as <-. cbn [pl_artists pl_x pl_y]. pose proof (draw_all pct fmt a l (F l El)) as D. rewrite Ed in D.
  destruct D as (D1 & D2 & (os & D3 & D3') & _). exists l. split; [exact El|]. split; [exact D1|]. split; [exact D2|]. split.
  - exists os. split; [|exact D3']. eapply Forall2_imp; [|exact D3]. intros lp o ([[name x] y] & (N & _) & ->). exists name. split; [exact N|]. apply overlay_lines_ok.
  - split; [apply x_label_spec|reflexivity].
Qed.
Print Assumptions plot_shows_frontiers.

(** Equal names are possible but the label of each line is determined. *)
Theorem line_unique : forall risk lp c c', line_of risk lp c -> line_of risk lp c' -> c = c'.
Proof.
  intros risk lp [[s x] y] [[s' x'] y'] (N & R & ->) (N' & R' & ->). rewrite (named_unique _ _ _ _ N N'), (risks_for_one _ _ _ _ R R'). reflexivity.
Qed.
Print Assumptions line_unique.

Example plot_case : exists pl, plot_frontiers no_pct no_fmt (FSeq [Some ex_p; Some ex_p]) (Some ["one"; ""]%string) ex_args = Ok pl /\
  curves (pl_artists pl) = [("one"%string, [1; 1; 2], [1; 2; 3]); ("CVaR"%string, [1; 1; 2], [1; 2; 3])] /\
  overlays (pl_artists pl) = [("one (Volatility)"%string, [3; 2; 1], [1; 2; 3]); ("CVaR (Volatility)"%string, [3; 2; 1], [1; 2; 3])] /\
  pl_x pl = "CVaR"%string /\ markers (pl_artists pl) = [(1, 1); (2, 3); (1, 1); (2, 3)].
Proof.
  unfold plot_frontiers, plot_normalized, normalize_frontiers, ex_args, draw_frontier, draw_highlight, resolve_highlight, argmin, argmax, argbest, ex_p, ex_fr, pick. simpl.
  rdec. simpl. rdec. simpl. eexists. split; [reflexivity|]. repeat split; simpl; repeat f_equal; lra.
Qed.

(** * C139 *)
(** Highlights: for every frontier and every highlight in order there is one record, and one marker at its (displayed risk,
    return): the first portfolio of least displayed risk, of greatest return, or of greatest excess return per unit of
    displayed risk; a tangency highlight of portfolios whose risks are all (numerically) zero is omitted. *)
Theorem plot_marks_portfolios : forall pct fmt fs labels a pl,
  (forall l, supplied fs labels l -> forall lp, In lp l -> frontier_ok (snd lp)) ->
  plot_frontiers pct fmt fs labels a = Ok pl ->
  exists l rss, supplied fs labels l /\
    Forall2 (fun lp rs => exists qs, Forall2 (highlight_records a lp) (pa_highlight a) qs /\ rs = List.concat qs) l rss /\
    pl_records pl = List.concat rss /\
    markers (pl_artists pl) = map (fun r => (s_risk (rc_point r), s_return (rc_point r))) (pl_records pl).
Proof.
  intros pct fmt fs labels a pl F H. unfold plot_frontiers, plot_normalized in H. apply bind_ok in H as (l & El & H). apply normalize_iff in El.
  apply bind_ok in H as (ds & Ed & H). injection H as <-. cbn [pl_artists pl_records]. pose proof (draw_all pct fmt a l (F l El)) as D. rewrite Ed in D.
  destruct D as (_ & _ & _ & (rss & D4 & D4') & D5 & _). exists l, rss. auto.
Qed.
Print Assumptions plot_marks_portfolios.

(** The legend text of each marker names the frontier as its line does, then the kind of portfolio; metadata may follow. *)
Lemma append_assoc (a b c : string) : ((a ++ b) ++ c = a ++ b ++ c)%string.
Proof. induction a as [|x a IH]; cbn; [reflexivity|]. rewrite IH. reflexivity. Qed.
Lemma append_empty (a : string) : (a ++ "" = a)%string.
Proof. induction a as [|x a IH]; cbn; [reflexivity|]. rewrite IH. reflexivity. Qed.
Lemma texts_app l m : marker_texts (l ++ m) = marker_texts l ++ marker_texts m. Proof. unfold marker_texts. apply flat_map_app. Qed.
Lemma highlight_text pct fmt a p label x m ar rs : draw_highlight pct fmt a p label x m = Ok (ar, rs) -> Forall2 (shown_text (pa_keys a)) rs (marker_texts ar).
Proof.
  unfold draw_highlight. intros H. apply bind_ok in H as (r & _ & H). destruct r as [[[name s] i]|]; injection H as <- <-; [|constructor].
  cbn [marker_texts flat_map app]. constructor; [|constructor]. unfold shown_text, highlight_label. cbn [rc_frontier rc_type rc_meta].
  destruct (tokens fmt (pa_keys a) (meta_at p i)) as [|t ts] eqn:E.
  - exists ""%string. split; [rewrite append_empty; reflexivity|auto].
  - exists (" (" ++ String.concat ", " (t :: ts) ++ ")")%string. split; [rewrite !append_assoc; reflexivity|].
    intros [K|K]; exfalso; unfold tokens in E; [rewrite K in E; destruct (meta_at p i); discriminate|rewrite K in E; discriminate].
Qed.
Lemma overlay_texts f label os : marker_texts (flat_map (draw_overlay f label) os) = [].
Proof.
  induction os as [|o os IH]; [reflexivity|]. cbn [flat_map]. rewrite texts_app, IH, app_nil_r. unfold draw_overlay. destruct (risk_vector f (Some o)); reflexivity.
Qed.
Theorem marker_texts_faithful : forall pct fmt fs labels a pl, plot_frontiers pct fmt fs labels a = Ok pl ->
  Forall2 (shown_text (pa_keys a)) (pl_records pl) (marker_texts (pl_artists pl)).
Proof.
  intros pct fmt fs labels a pl H. unfold plot_frontiers, plot_normalized in H. apply bind_ok in H as (l & _ & H).
  apply bind_ok in H as (ds & Ed & H). injection H as <-. cbn [pl_artists pl_records].
  revert ds Ed. induction l as [|[s p] l IH]; intros ds Ed; cbn [mapM] in Ed; [injection Ed as <-; constructor|].
  apply bind_ok in Ed as ([ar rs] & Ef & Ed). apply bind_ok in Ed as (ds' & Ed & E). injection E as <-. cbn [flat_map fst snd]. rewrite texts_app.
  apply Forall2_app; [|apply IH; exact Ed]. clear IH Ed. unfold draw_frontier in Ef. apply bind_ok in Ef as (x & _ & Ef). apply bind_ok in Ef as (hs & Eh & Ef). injection Ef as <- <-.
  match goal with |- context [Curve ?l0 ?x0 ?y0 :: ?t] => change (marker_texts (Curve l0 x0 y0 :: t)) with (marker_texts t) end.
  rewrite !texts_app, overlay_texts. assert (N : marker_texts (if pa_points a then [Nodes x (f_ret (pf_f p))] else []) = []) by (destruct (pa_points a); reflexivity). rewrite N. cbn [app].
  revert hs Eh. generalize (pa_highlight a). intros ms. induction ms as [|m ms IH]; intros hs Eh; cbn [mapM] in Eh; [injection Eh as <-; constructor|].
  apply bind_ok in Eh as ([ar rs] & E1 & Eh). apply bind_ok in Eh as (hs' & Eh & E). injection E as <-. cbn [flat_map fst snd]. rewrite texts_app.
  apply Forall2_app; [eapply highlight_text; exact E1|apply IH; exact Eh].
Qed.
Print Assumptions marker_texts_faithful.

(** They agree with the frontier's own selectors: [min_risk] under the displayed label; [max_return] up to the risk shown;
    [tangency] when the displayed risk is the primary one. *)
Theorem highlight_min_risk_is_selector : forall a s p rs, frontier_ok p -> highlight_records a (s, p) "min_risk" rs ->
  exists r, rs = [r] /\ min_risk (pf_f p) (pa_risk a) = Ok (rc_point r).
Proof.
  intros a s p rs [W S0] (x & Rx & [(r & i & -> & H & P & _)|(_ & Q & _)]); [|discriminate Q]. cbn [snd] in *. exists r. split; [reflexivity|].
  destruct H as [[_ H]|[[Q _]|[Q _]]]; try discriminate Q. destruct (min_risk (pf_f p) (pa_risk a)) as [q|e] eqn:E.
  - apply min_risk_ok in E as (y & j & Ry & P' & H'); [|exact W]. pose proof (risks_for_one _ _ _ _ Rx Ry) as <-. rewrite (first_best_one _ _ _ _ _ H H') in P.
    f_equal. eapply is_portfolio_one; eassumption.
  - exfalso. unfold min_risk in E. rewrite (proj2 (risk_vector_ok _ _ _) Rx) in E. cbn [bind] in E.
    destruct (argbest_total Rltb x) as (k & Ek); [intros ->; apply risks_for_length in Rx; [cbn in Rx; lia|exact W]|]. unfold argmin in E. rewrite Ek in E. discriminate E.
Qed.
Print Assumptions highlight_min_risk_is_selector.

Theorem highlight_max_return_is_selector : forall a s p rs, frontier_ok p -> highlight_records a (s, p) "max_return" rs ->
  exists r q, rs = [r] /\ max_return (pf_f p) = Ok q /\ s_weights (rc_point r) = s_weights q /\ s_names (rc_point r) = s_names q /\
    s_return (rc_point r) = s_return q /\ (risks_for (pf_f p) (pa_risk a) (f_risk (pf_f p)) -> rc_point r = q).
Proof.
  intros a s p rs [W S0] (x & Rx & [(r & i & -> & H & P & _)|(_ & Q & _)]); [|discriminate Q]. cbn [snd] in *.
  destruct H as [[Q _]|[[_ H]|[Q _]]]; try discriminate Q. destruct (max_return_total (pf_f p) S0) as (q & E). exists r, q. split; [reflexivity|]. split; [exact E|].
  apply max_return_ok in E as (j & P' & H'). rewrite (first_best_one _ _ _ _ _ H H') in P. destruct P as (P1 & P2 & P3 & P4 & P5), P' as (Q1 & Q2 & Q3 & Q4 & Q5).
  repeat split; try congruence. intros R'. rewrite (risks_for_one _ _ _ _ Rx R') in P5. destruct (rc_point r), q; cbn in *; congruence.
Qed.
Print Assumptions highlight_max_return_is_selector.

Theorem highlight_tangency_is_selector : forall a s p rs rf q, frontier_ok p -> pa_rf a = Some rf ->
  risks_for (pf_f p) (pa_risk a) (f_risk (pf_f p)) -> tangency (pf_f p) rf = Ok q -> highlight_records a (s, p) "tangency" rs ->
  forall r, In r rs -> rc_point r = q.
Proof.
  intros a s p rs rf q [W S0] Erf R' E (x & Rx & [(r & i & -> & H & P & _)|(-> & _)]); [|intros r []]. cbn [snd] in *. intros r' [<-|[]].
  destruct H as [[Q _]|[[Q _]|(_ & rf' & Erf' & H)]]; try discriminate Q. assert (rf' = rf) as -> by congruence.
  pose proof (risks_for_one _ _ _ _ Rx R') as ->. apply tangency_ok in E as (j & P' & H'); [|exact W]. rewrite (first_best_one _ _ _ _ _ H H') in P. eapply is_portfolio_one; eassumption.
Qed.
Print Assumptions highlight_tangency_is_selector.

(** With another displayed risk the highlighted tangency portfolio is not the one [tangency] returns. *)
Theorem highlight_tangency_alternate_refuted : exists p a pl r q, frontier_ok p /\ pa_rf a = Some 0 /\
  plot_frontiers no_pct no_fmt (FOne p) None a = Ok pl /\ pl_records pl = [r] /\ tangency (pf_f p) 0 = Ok q /\ s_weights (rc_point r) <> s_weights q.
Proof.
  exists ex_p, (mkPA ["tangency"%string] (Some 0) true [] (Some "Volatility"%string) "Expected Return" []).
  assert (T : tangency ex_fr 0 = Ok (mkSel (Some ["A"; "B"]%string) [1/2; 1/2] 2 1)) by apply selectors_run.
  assert (A : exists pl, plot_frontiers no_pct no_fmt (FOne ex_p) None (mkPA ["tangency"%string] (Some 0) true [] (Some "Volatility"%string) "Expected Return" []) = Ok pl).
  { apply plot_accepts.
    - intros l Hl. inversion Hl; subst. intros lp [<-|[]]. exact ex_p_ok.
    - exists [(None, ex_p)]. split; [constructor|]. intros lp [<-|[]]. cbn. split.
      + intros (l & [= <-] & _ & N). apply (N [3; 2; 1]). left. reflexivity.
      + intros m [<-|[]]. right. right. split; [reflexivity|discriminate]. }
  destruct A as (pl & E). pose proof (fun F => plot_marks_portfolios _ _ _ _ _ _ F E) as M. destruct M as (l & rss & Hl & HR & HC & _).
  { intros l Hl. inversion Hl; subst. intros lp [<-|[]]. exact ex_p_ok. }
  inversion Hl; subst. inversion HR as [|? rs ? t (qs & HQ & ->) HT]; subst. inversion HT; subst. cbn [pa_highlight] in HQ. inversion HQ as [|? rs ? t (x & Rx & H) HT']; subst. inversion HT'; subst.
  cbn [pa_risk pa_rf snd pf_f ex_p] in *.
  assert (x = [3; 2; 1]) as ->.
  { apply (risks_for_one ex_fr (Some "Volatility"%string)); [exact Rx|]. apply (rf_alt _ _ _ [] []); [discriminate|reflexivity|intros v []]. }
  destruct H as [(r & i & -> & H & P & _)|(_ & _ & _ & Z)].
  - exists pl, r, (mkSel (Some ["A"; "B"]%string) [1/2; 1/2] 2 1). split; [exact ex_p_ok|]. split; [reflexivity|]. split; [exact E|]. split; [rewrite HC; reflexivity|]. split; [exact T|].
    destruct P as (P1 & _ & -> & _). cbn [s_weights]. destruct H as [[Q _]|[[Q _]|(_ & rf & Q & H)]]; try discriminate Q. cbn in Q. injection Q as <-.
    unfold size in P1. cbn in P1. destruct i as [|[|[|i]]]; [| |cbn|lia].
    + destruct H as (_ & _ & H & _). specialize (H 2%nat ltac:(cbn; lia)). cbn in H. assert (1 <> 0) by lra. specialize (H H0). lra.
    + destruct H as (_ & _ & H & _). specialize (H 2%nat ltac:(cbn; lia)). cbn in H. assert (1 <> 0) by lra. specialize (H H0). lra.
    + intros Q. injection Q as Q _. lra.
  - exfalso. specialize (Z 1 ltac:(right; right; left; reflexivity)). rewrite Rabs_R1 in Z. lra.
Qed.
Print Assumptions highlight_tangency_alternate_refuted.

(** * C140 *)
(** A plot is drawn iff the frontiers are given properly (a frontier, a sequence or a mapping of frontiers, with one label each
    if labels are given), every frontier carries the displayed measure and every highlight is one of the three known ones, a
    tangency highlight with a risk-free rate. *)
Theorem plot_accepts_exactly : forall pct fmt fs labels a,
  (forall l, supplied fs labels l -> forall lp, In lp l -> frontier_ok (snd lp)) ->
  (exists pl, plot_frontiers pct fmt fs labels a = Ok pl) <-> exists l, supplied fs labels l /\ drawable a l.
Proof. exact plot_accepts. Qed.
Print Assumptions plot_accepts_exactly.

(** Which error: a wrong element is a TypeError, a wrong number of labels or highlight a ValueError, a measure that some
    frontier does not carry a KeyError. *)
Theorem plot_errors : forall pct fmt fs labels a e,
  (forall l, supplied fs labels l -> forall lp, In lp l -> frontier_ok (snd lp)) ->
  plot_frontiers pct fmt fs labels a = Err e ->
  (e = TypeError /\ (exists l, (fs = FMap l /\ exists k, In (k, None) l) \/ (exists l, fs = FSeq l /\ In None l))) \/
  (e = ValueError /\ exists ls, labels = Some ls /\ match fs with FOne _ => List.length ls <> 1%nat | FSeq l => List.length ls <> List.length l | FMap _ => False end) \/
  (exists l, supplied fs labels l /\ ~ drawable a l /\ (e = KeyError \/ e = ValueError)).
Proof.
  intros pct fmt fs labels a e F H. unfold plot_frontiers, plot_normalized in H. destruct (normalize_frontiers fs labels) as [l|e'] eqn:E; cbn [bind] in H.
  - right. right. apply normalize_iff in E. pose proof (draw_all pct fmt a l (F l E)) as D. destruct (mapM _ l) as [ds|e']; cbn [bind] in H; [discriminate|].
    injection H as <-. exists l. auto.
  - injection H as <-. unfold normalize_frontiers in E. destruct fs as [l|f|l].
    + left. apply mapM_err in E as ([k [p|]] & Hk & E); cbn in E; [discriminate|]. injection E as <-. split; [reflexivity|]. exists l. left. eauto.
    + cbn zeta in E. destruct labels as [ls|]; [|discriminate E]. destruct (Nat.eqb (List.length ls) (List.length [Some f])) eqn:L.
      * cbn [bind] in E. apply mapM_err in E as ([s [p|]] & Hk & E); cbn in E; [discriminate|]. apply in_combine_r in Hk as [Hk|[]]. discriminate Hk.
      * injection E as <-. right. left. split; [reflexivity|]. exists ls. split; [reflexivity|]. apply Nat.eqb_neq in L. exact L.
    + cbn zeta in E. destruct labels as [ls|].
      * destruct (Nat.eqb (List.length ls) (List.length l)) eqn:L.
        -- cbn [bind] in E. apply mapM_err in E as ([s [p|]] & Hk & E); cbn in E; [discriminate|]. apply in_combine_r in Hk. injection E as <-. left. split; [reflexivity|]. exists []. right. eauto.
        -- injection E as <-. right. left. split; [reflexivity|]. exists ls. split; [reflexivity|]. apply Nat.eqb_neq in L. exact L.
      * cbn [bind] in E. apply mapM_err in E as ([s [p|]] & Hk & E); cbn in E; [discriminate|]. apply in_combine_r in Hk. injection E as <-. left. split; [reflexivity|]. exists []. right. eauto.
Qed.
Print Assumptions plot_errors.

Example plot_errors_case :
  plot_frontiers no_pct no_fmt (FSeq [Some ex_p; None]) None ex_args = Err TypeError /\
  plot_frontiers no_pct no_fmt (FSeq [Some ex_p]) (Some []) ex_args = Err ValueError /\
  plot_frontiers no_pct no_fmt (FOne ex_p) None (mkPA [] None true [] (Some "EVaR"%string) "r" []) = Err KeyError /\
  plot_frontiers no_pct no_fmt (FOne ex_p) None (mkPA ["tangency"%string] None true [] None "r" []) = Err ValueError.
Proof. repeat split; reflexivity. Qed.

(** * C141 *)
(** plot_frontiers_grid: one panel for every distinct group, titled with the group, in order of first appearance; each panel
    has one line for every distinct name among the frontiers of its group, that of the last frontier of that name; the grid
    has the requested number of columns (or one row) and fewer blank axes than one row. *)
Theorem grid_shows : forall pct fmt fs by_ labels cols legend policy a ps blank,
  (forall l, supplied fs labels l -> forall lp, In lp l -> frontier_ok (snd lp)) ->
  plot_frontiers_grid pct fmt fs by_ labels cols legend policy a = Ok (ps, blank) ->
  exists l, supplied fs labels l /\ l <> [] /\ map pn_title ps = distinct (map (group_of by_) l) /\
    (forall pn, In pn ps ->
       Forall2 (fun n c => exists p, survives (members by_ (pn_title pn) l) n p /\ line_of (pa_risk a) (Some n, p) c)
         (distinct (map panel_name (members by_ (pn_title pn) l))) (curves (pl_artists (pn_plot pn)))) /\
    exists c : nat, (0 < c)%nat /\ (blank < c)%nat /\ Nat.modulo (List.length ps + blank) c = 0%nat /\
      match cols with Some k => if (k =? 0)%Z then c = List.length ps else Z.of_nat c = k | None => c = List.length ps end.
Proof.
  intros pct fmt fs by_ labels cols legend policy a ps blank F H. apply grid_spec in H as (l & H1 & H2 & H3 & H4 & H5); [|exact F].
  exists l. split; [exact H1|]. split; [exact H2|]. split; [exact H3|]. split; [|exact H5]. intros pn Hpn. apply H4, Hpn.
Qed.
Print Assumptions grid_shows.

(** If the names within each group differ, every frontier is drawn in the panel of its group. *)
Theorem grid_complete : forall pct fmt fs by_ labels cols legend policy a ps blank l,
  (forall l, supplied fs labels l -> forall lp, In lp l -> frontier_ok (snd lp)) ->
  plot_frontiers_grid pct fmt fs by_ labels cols legend policy a = Ok (ps, blank) -> supplied fs labels l ->
  (forall g, NoDup (map panel_name (members by_ g l))) ->
  forall lp, In lp l -> exists pn c, In pn ps /\ pn_title pn = group_of by_ lp /\ In c (curves (pl_artists (pn_plot pn))) /\
    line_of (pa_risk a) (Some (panel_name lp), snd lp) c.
Proof.
  intros pct fmt fs by_ labels cols legend policy a ps blank l F H El ND lp Hlp. apply grid_spec in H as (l' & H1 & H2 & H3 & H4 & _); [|exact F].
  assert (l' = l) as -> by (apply normalize_iff in H1; apply normalize_iff in El; congruence).
  assert (In (group_of by_ lp) (map pn_title ps)) as Hg by (rewrite H3; apply distinct_in, in_map, Hlp). apply in_map_iff in Hg as (pn & Et & Hpn).
  destruct (H4 pn Hpn) as [PS _]. unfold panel_spec in PS. rewrite Et in PS. rewrite distinct_id in PS by apply ND.
  assert (Hm : In lp (members by_ (group_of by_ lp) l)) by (apply members_in; auto).
  destruct (Forall2_get _ _ _ (panel_name lp) PS (in_map _ _ _ Hm)) as (c & Hc & p & Hs & Hl). apply survives_unique in Hs; [|apply ND|exact Hm]. subst p.
  exists pn, c. auto.
Qed.
Print Assumptions grid_complete.

(** Without distinct names the grid drops frontiers that plot_frontiers draws: of two unlabelled frontiers of the same measure
    only the second appears. *)
Theorem grid_drops_unlabelled_refuted : forall pct fmt p q a ps blank legend policy cols, frontier_ok p -> frontier_ok q ->
  f_measure (pf_f p) = f_measure (pf_f q) ->
  plot_frontiers_grid pct fmt (FSeq [Some p; Some q]) None None cols legend policy a = Ok (ps, blank) ->
  exists pn c, ps = [pn] /\ curves (pl_artists (pn_plot pn)) = [c] /\ snd c = f_ret (pf_f q).
Proof.
  intros pct fmt p q a ps blank legend policy cols Fp Fq E H.
  apply grid_shows in H as (l & H1 & _ & H3 & H4 & _).
  2:{ intros l Hl. apply normalize_iff in Hl. cbn in Hl. injection Hl as <-. intros lp [<-|[<-|[]]]; assumption. }
  apply normalize_iff in H1. cbn in H1. injection H1 as <-. cbn [map] in H3.
  assert (EG : group_of None (None, q) = group_of None (None, p)) by (unfold group_of; cbn; rewrite E; reflexivity).
  rewrite EG in H3. unfold distinct in H3. cbn [distinct_from existsb] in H3. rewrite String.eqb_refl in H3. cbn [orb] in H3.
  destruct ps as [|pn [|? ?]]; try discriminate H3. injection H3 as Et. specialize (H4 pn (or_introl eq_refl)). unfold members in H4. cbn [filter] in H4.
  rewrite EG, Et, String.eqb_refl in H4. cbn [map] in H4.
  replace (panel_name (None, q)) with (panel_name (None, p)) in H4 by (unfold panel_name; cbn; exact E).
  unfold distinct in H4. cbn [distinct_from existsb] in H4. rewrite String.eqb_refl in H4. cbn [orb] in H4.
  inversion H4 as [|? c ? cs (r & (pre & x & post & E1 & E2 & E3 & E4) & HL) HN]; subst. inversion HN; subst. exists pn, c. split; [reflexivity|]. split; [auto|].
  destruct c as [[s x0] y]. destruct HL as (_ & _ & ->). cbn [snd]. f_equal. f_equal.
  destruct pre as [|z [|z' pre]]; cbn in E1.
  - injection E1 as <- <-. exfalso. apply (E4 (None, q)); [left; reflexivity|]. unfold panel_name. cbn. symmetry. exact E.
  - injection E1 as _ <- <-. reflexivity.
  - destruct pre; discriminate E1.
Qed.
Print Assumptions grid_drops_unlabelled_refuted.

(** The grid is drawn whenever the frontiers can be drawn, with a non-negative number of columns and a known legend policy... *)
Theorem grid_accepts : forall pct fmt fs by_ labels cols legend policy a l,
  (forall l, supplied fs labels l -> forall lp, In lp l -> frontier_ok (snd lp)) -> supplied fs labels l -> l <> [] -> drawable a l ->
  (forall k, cols = Some k -> (0 <= k)%Z) -> In policy ["auto"; "none"; "each"]%string ->
  exists ps blank, plot_frontiers_grid pct fmt fs by_ labels cols legend policy a = Ok (ps, blank) /\
    forall pn, In pn ps ->
      pn_legend pn = (legend && (if String.eqb policy "auto" then Nat.eqb (List.length ps) 1 else negb (String.eqb policy "none")))%bool.
Proof.
  intros pct fmt fs by_ labels cols legend policy a l F El Hl D C P. destruct (grid_total pct fmt fs by_ labels cols legend policy a l F El Hl D C P) as ([ps blank] & E).
  exists ps, blank. split; [exact E|]. apply grid_spec in E as (l' & _ & _ & _ & H & _); [|exact F]. intros pn Hpn. apply H in Hpn as [_ Hpn].
  unfold show_legend in Hpn. destruct P as [<-|[<-|[<-|[]]]]; cbn in Hpn; injection Hpn as <-; [reflexivity|rewrite Bool.andb_false_r; reflexivity|rewrite Bool.andb_true_r; reflexivity].
Qed.
Print Assumptions grid_accepts.

(** ...but not with the policy "all" that the documentation offers ("each" is what the code reads). *)
Theorem grid_legend_all_refuted : forall pct fmt fs by_ labels cols legend a r,
  plot_frontiers_grid pct fmt fs by_ labels cols legend "all" a <> Ok r.
Proof.
  intros pct fmt fs by_ labels cols legend a r H. unfold plot_frontiers_grid in H. apply bind_ok in H as (l & El & H). cbv zeta in H.
  destruct (groups by_ l) as [|g G] eqn:EG; [discriminate|]. rewrite <- EG in H. set (n := Z.of_nat (List.length (groups by_ l))) in *.
  set (c := match cols with Some c => if (c =? 0)%Z then n else c | None => n end) in *. destruct (_ || _)%Z eqn:E; [discriminate|].
  apply Bool.orb_false_iff in E as [E1 E2]. apply Z.leb_gt in E1. apply Z.leb_gt in E2.
  rewrite EG in H. destruct (Z.to_nat ((n + c - 1) / c * c)) eqn:Z0; [nia|]. cbn [firstn mapM show_legend String.eqb Ascii.eqb Bool.eqb bind] in H. discriminate H.
Qed.
Print Assumptions grid_legend_all_refuted.

Example grid_case : exists ps, plot_frontiers_grid no_pct no_fmt (FSeq [Some ex_p; Some ex_p]) None (Some ["one"; "two"]%string) (Some 2%Z) true "each"
    (mkPA [] None false [] None "r" []) = Ok (ps, 1%nat) /\
  map pn_title ps = ["CVaR"%string] /\ map (fun pn => map (fun c => fst (fst c)) (curves (pl_artists (pn_plot pn)))) ps = [["one"; "two"]%string].
Proof. eexists. split; [reflexivity|]. split; reflexivity. Qed.

(** * C142 *)
(** plot_weights of a Series: the bars are the [kept] largest weights (pandas' sorting is any sort), in increasing order for
    horizontal and decreasing order for vertical bars; every hidden weight is at most every shown one. *)
Theorem weight_bars : forall asc desc l top kind pct, sorts_asc asc -> sorts_desc desc ->
  exists shown hidden b, plot_weights asc desc (WSeries l) top kind pct = Ok b /\ b_cols b = [shown] /\
    Permutation (shown ++ hidden) l /\ List.length shown = kept (List.length l) top /\ drawing_order kind shown /\
    (forall s h, In s shown -> In h hidden -> snd h <= snd s).
Proof.
  intros asc desc l top kind pct HA HD. destruct (plot_series asc desc l top kind pct HA HD) as (sh & hi & b & H1 & H2 & H3 & H4 & H5 & H6 & _).
  exists sh, hi, b. auto 8.
Qed.
Print Assumptions weight_bars.

(** The sorting hypotheses can be met, and [top_n]. *)
Definition ex_asc (l : list (string * R)) : list (string * R) := take (""%string, 0) l (argsort_by Rleb 0 (map snd l)).
Example ex_asc_sorts : sorts_asc ex_asc /\ sorts_desc (fun l => rev (ex_asc l)).
Proof.
  assert (A : sorts_asc ex_asc).
  { intros l. unfold ex_asc. destruct (rsort_sorts (map snd l)) as [P SS]. rewrite map_length in P. split; [apply take_perm, P|].
    replace (map snd (take (""%string, 0) l (argsort_by Rleb 0 (map snd l)))) with (take 0 (map snd l) (argsort_by Rleb 0 (map snd l))); [apply sorted_nondecreasing, SS|].
    unfold take. rewrite map_map. apply map_ext. intros i. exact (map_nth snd l (""%string, 0) i). }
  split; [exact A|]. intros l. destruct (A l) as [P SS]. split; [eapply perm_trans; [apply Permutation_sym, Permutation_rev|exact P]|]. rewrite map_rev, rev_involutive. exact SS.
Qed.
Example kept_case : kept 5 None = 5%nat /\ kept 5 (Some 3%Z) = 3%nat /\ kept 5 (Some 9%Z) = 5%nat /\ kept 5 (Some (-2)%Z) = 3%nat.
Proof. repeat split. Qed.
Example weight_bars_case : exists b, plot_weights (fun l => l) (fun l => l) (WSeries [("A", 1/4); ("B", 3/4)]%string) (Some 1%Z) BarH true = Ok b /\ b_cols b = [[("B"%string, 3/4)]].
Proof. eexists. split; reflexivity. Qed.

(** [top_n] does nothing for a DataFrame: every asset of every column is drawn. *)
Theorem weight_bars_frame_refuted : forall asc desc ix cols kind pct k, Forall (fun c => List.length (snd c) = List.length ix) cols ->
  exists b, plot_weights asc desc (WFrame ix cols) (Some k) kind pct = Ok b /\
    Forall2 (fun c bs => map fst bs = ix /\ map snd bs = snd c) cols (b_cols b).
Proof.
  intros asc desc ix cols kind pct k L. eexists. split; [reflexivity|]. cbn [b_cols]. apply Forall2_map_r. induction L as [|c cols L0 L IH]; constructor; [|exact IH].
  split; [apply map_fst_combine; auto|]. clear L IH. revert ix L0. generalize (snd c). intros v. induction v as [|y v IHv]; intros [|x ix] E; cbn in *; try discriminate; [reflexivity|]. f_equal. apply IHv. lia.
Qed.
Print Assumptions weight_bars_frame_refuted.
(** With the default percentage axes a vertical bar chart has the percentage formatter on its category axis. *)
Theorem weight_bars_vertical_labels_refuted : forall asc desc l top b,
  plot_weights asc desc (WSeries l) top Bar true = Ok b -> b_pct_x b = true /\ b_pct_y b = true.
Proof. intros asc desc l top b [= <-]. split; reflexivity. Qed.
Print Assumptions weight_bars_vertical_labels_refuted.

(** * C143 *)
(** plot_robust_path: point [i] is (displayed risk, return) of portfolio [i], coloured by its parameter when the metadata has
    a finite number for every portfolio, and otherwise by an even spacing of [0, 1]. *)
Theorem robust_path_points : forall p param rl ov line pp, frontier_ok p -> plot_robust_path p param rl ov line = Ok pp ->
  exists x vs, risks_for (pf_f p) rl x /\ List.length vs = size (pf_f p) /\
    List.length (pp_points pp) = size (pf_f p) /\
    (forall i, (i < size (pf_f p))%nat -> nth i (pp_points pp) (0, 0, 0) = (nthr x i, ret_of (pf_f p) i, nthr vs i)) /\
    ((exists ms, pf_meta p = Some ms /\ parameters param ms vs) \/
     ((forall ms ws, pf_meta p = Some ms -> ms <> [] -> ~ parameters param ms ws) /\ evenly_spaced (size (pf_f p)) vs)) /\
    curves (pp_lines pp) = (if line then [(""%string, x, f_ret (pf_f p))] else []) /\
    named [rl] (f_measure (pf_f p)) (pp_x pp).
Proof. exact robust_path_spec. Qed.
Print Assumptions robust_path_points.

(** plot_param_impact: the two lines are the pairs (parameter, return) and (parameter, displayed risk) of all portfolios in
    increasing order of the parameter; it is drawn iff the metadata and the measure are there. *)
Theorem param_impact_lines : forall argsort p param rl ms, sorts Rle 0 argsort -> frontier_ok p -> pf_meta p = Some ms ->
  List.length ms = size (pf_f p) ->
  ((exists ab, plot_param_impact argsort p param rl NoAx = Ok ab) <-> (exists vs, parameters param ms vs) /\ ~ unknown_label (pf_f p) rl) /\
  forall a b, plot_param_impact argsort p param rl NoAx = Ok (a, b) ->
    exists vs x, parameters param ms vs /\ risks_for (pf_f p) rl x /\
      Permutation a (combine vs (f_ret (pf_f p))) /\ Permutation b (combine vs x) /\ nondecreasing (map fst a) /\ map fst b = map fst a.
Proof.
  intros argsort p param rl ms SA F Em L.
  assert (Q : forall a b, plot_param_impact argsort p param rl NoAx = Ok (a, b) ->
    exists vs x, parameters param ms vs /\ risks_for (pf_f p) rl x /\
      Permutation a (combine vs (f_ret (pf_f p))) /\ Permutation b (combine vs x) /\ nondecreasing (map fst a) /\ map fst b = map fst a).
  { intros a b H. apply param_impact_spec in H as (ms' & vs & x & Em' & H); [|exact SA|exact F|intros ms' E; congruence]. assert (ms' = ms) as -> by congruence. exists vs, x. exact H. }
  split; [|exact Q]. split.
  - intros ([a b] & H). apply Q in H as (vs & x & P & R & _). split; [eauto|]. apply risk_known. eauto.
  - intros ((vs & P) & U). eapply param_impact_ok; eauto.
Qed.
Print Assumptions param_impact_lines.

(** The [ax] argument of plot_param_impact never works: a pair of axes raises AttributeError, a single axis TypeError. *)
Theorem param_impact_ax_refuted : forall argsort p param rl ax r, ax <> NoAx -> plot_param_impact argsort p param rl ax <> Ok r.
Proof.
  intros argsort p param rl ax r N H. unfold plot_param_impact in H. destruct (pf_meta p) as [ms|]; [|discriminate]. apply bind_ok in H as (l & _ & H).
  destruct (all_finite l); [|discriminate]. cbv zeta in H. apply bind_ok in H as (x & _ & H). apply bind_ok in H as (y & _ & H). apply bind_ok in H as (z & _ & H).
  destruct ax; [congruence|discriminate|discriminate].
Qed.
Print Assumptions param_impact_ax_refuted.

(** plot_robust_surface: point [i] is (parameter, displayed risk, return) of portfolio [i]. *)
Theorem robust_surface_points : forall p param rl ms, frontier_ok p -> pf_meta p = Some ms -> List.length ms = size (pf_f p) ->
  forall pts, plot_robust_surface p param rl = Ok pts <->
  exists vs x, parameters param ms vs /\ risks_for (pf_f p) rl x /\ List.length pts = size (pf_f p) /\
    forall i, (i < size (pf_f p))%nat -> nth i pts (0, 0, 0) = (nthr vs i, nthr x i, ret_of (pf_f p) i).
Proof. exact surface_spec. Qed.
Print Assumptions robust_surface_points.

(** A parameter that is a string for some portfolio is an error in all three plots. *)
Lemma string_values param ms m t : In m ms -> lookup param m = Some (MStr t) -> param_values param ms = Err ValueError.
Proof.
  intros I E. unfold param_values. induction ms as [|m' ms IH]; [destruct I|]. cbn [mapM]. destruct I as [->|I].
  - rewrite E. reflexivity.
  - rewrite (IH I). destruct (lookup param m') as [[x| |s|]|]; reflexivity.
Qed.
Theorem string_parameter_raises : forall argsort p param rl ms m t, pf_meta p = Some ms -> In m ms -> lookup param m = Some (MStr t) ->
  (forall ov line, exists e, plot_robust_path p param rl ov line = Err e) /\
  (forall ax, plot_param_impact argsort p param rl ax = Err ValueError) /\ plot_robust_surface p param rl = Err ValueError.
Proof.
  intros argsort p param rl ms m t E I S. pose proof (string_values _ _ _ _ I S) as K. split; [|split].
  - intros ov line. unfold plot_robust_path. destruct (risk_vector (pf_f p) rl) as [x|e]; cbn [bind]; [|eauto]. rewrite E. destruct ms as [|m0 ms]; [destruct I|].
    rewrite K. cbn [bind]. eauto.
  - intros ax. unfold plot_param_impact. rewrite E, K. reflexivity.
  - unfold plot_robust_surface. rewrite E, K. reflexivity.
Qed.
Print Assumptions string_parameter_raises.

Example robust_path_case : exists pp, plot_robust_path ex_p "radius" None None true = Ok pp /\
  pp_points pp = [(1, 1, 2); (1, 2, 1); (2, 3, 0)] /\
  exists pp', plot_robust_path (mkPF ex_fr None) "radius" None None true = Ok pp' /\ map snd (pp_points pp') = [0; 1/2; 1].
Proof.
  eexists. split; [reflexivity|]. split; [reflexivity|]. eexists. split; [reflexivity|]. cbn. replace (1 + 1 + 1 - 1) with 2 by lra. repeat f_equal; lra.
Qed.
Example robust_surface_case : plot_robust_surface ex_p "radius" (Some "Volatility"%string) = Ok [(2, 3, 1); (1, 2, 2); (0, 1, 3)].
Proof. reflexivity. Qed.

(** * C144 *)
(** plot_frontier_report: the bars are all weights of the portfolio that the frontier's own selector returns, in increasing
    order; exactly one point is marked, at the return of that portfolio and at its risk in the displayed measure (under the
    aliases [maximum_return], [max_sharpe] and [sharpe], at its primary risk). *)
Theorem report_shows : forall argsort asc desc pct fmt lower rng p sel kw lab ov pts rp, frontier_ok p -> sorts_asc asc -> sorts_desc desc ->
  plot_frontier_report argsort asc desc pct fmt lower rng p sel kw lab ov pts None = Ok rp ->
  let f := pf_f p in
  exists s i x name px bs, chosen argsort f kw lab (lower sel) s /\ risks_for f lab x /\ (i < size f)%nat /\
    s_weights s = nth i (f_cols f) [] /\
    curves (pl_artists (rp_plot rp)) = [(name, x, f_ret f)] /\
    markers (pl_artists (rp_plot rp)) ++ match rp_dot rp with Some d => [d] | None => [] end = [(px, ret_of f i)] /\
    (px = nthr x i \/ (px = nthr (f_risk f) i /\ In (lower sel) ["maximum_return"; "max_sharpe"; "sharpe"]%string)) /\
    b_cols (rp_bars rp) = [bs] /\
    Permutation bs (combine (match f_names f with Some l => l | None => map rng (seq 0 (List.length (s_weights s))) end) (s_weights s)) /\
    nondecreasing (map snd bs).
Proof. exact report_spec. Qed.
Print Assumptions report_shows.

(** A report is drawn iff the key is not "tangency", the measure is known and the selector succeeds... *)
Theorem report_accepts_exactly : forall argsort asc desc pct fmt lower rng p sel kw lab ov pts, frontier_ok p ->
  (exists rp, plot_frontier_report argsort asc desc pct fmt lower rng p sel kw lab ov pts None = Ok rp) <->
  lower sel <> "tangency"%string /\ ~ unknown_label (pf_f p) lab /\ exists s, chosen argsort (pf_f p) kw lab (lower sel) s.
Proof. exact report_accepts. Qed.
Print Assumptions report_accepts_exactly.

(** ...so that the documented [selection="tangency"] always raises, with or without a risk-free rate. *)
Theorem report_tangency_refuted : forall argsort asc desc pct fmt lower rng p sel kw lab ov pts rp, frontier_ok p -> lower sel = "tangency"%string ->
  plot_frontier_report argsort asc desc pct fmt lower rng p sel kw lab ov pts None <> Ok rp.
Proof.
  intros argsort asc desc pct fmt lower rng p sel kw lab ov pts rp F E H.
  destruct (proj1 (report_accepts argsort asc desc pct fmt lower rng p sel kw lab ov pts F) (ex_intro _ rp H)) as [N _]. contradiction.
Qed.
Print Assumptions report_tangency_refuted.

(** A dot away from the curve: selection "maximum_return" under another displayed measure. *)
Theorem report_dot_off_curve_refuted : exists rp, plot_frontier_report (fun _ => []) (fun l => l) (fun l => l) no_pct no_fmt (fun s => s) (fun _ => ""%string)
    ex_p "maximum_return" [] (Some "Volatility"%string) [] true None = Ok rp /\
  rp_dot rp = Some (2, 3) /\ curves (pl_artists (rp_plot rp)) = [("Volatility"%string, [3; 2; 1], [1; 2; 3])].
Proof.
  unfold plot_frontier_report, report_select. cbn [existsb String.eqb Ascii.eqb Bool.eqb orb]. unfold max_return, argmax, argbest, ex_p, ex_fr. simpl. rdec. simpl. rdec. simpl.
  eexists. split; [reflexivity|]. split; reflexivity.
Qed.
Print Assumptions report_dot_off_curve_refuted.

Example report_case : exists rp, plot_frontier_report (fun _ => []) (fun l => l) (fun l => l) no_pct no_fmt (fun s => s) (fun _ => ""%string)
    ex_p "return_target" [("min_return"%string, 2)] None [] true None = Ok rp /\
  rp_dot rp = Some (1, 2) /\ b_cols (rp_bars rp) = [[("A"%string, 1/2); ("B"%string, 1/2)]].
Proof.
  unfold plot_frontier_report, report_select, kw_num. simpl. rewrite (proj1 (proj2 (proj2 (proj2 (proj2 (proj2 selectors_run)))))). simpl.
  eexists. split; [reflexivity|]. split; reflexivity.
Qed.
