(** Grids and reports. *)
From Coq Require Import List ZArith String Lia Lra Permutation.
Import ListNotations.
From Verif Require Import Err RBase SortLib FrModel FrSpec FrProofs FrProofs2 PlModel PlSpec PlProofs PlProofs2 PlProofs3.
Open Scope R_scope.
Open Scope list_scope.

Definition all_ok (fs : fr_arg) (labels : option (list string)) : Prop :=
  forall l, supplied fs labels l -> forall lp, In lp l -> frontier_ok (snd lp).

Lemma plot_accepts pct fmt fs labels a : (forall l, supplied fs labels l -> forall lp, In lp l -> frontier_ok (snd lp)) ->
  (exists pl, plot_frontiers pct fmt fs labels a = Ok pl) <-> exists l, supplied fs labels l /\ drawable a l.
Proof.
  intros F. unfold plot_frontiers, plot_normalized. split.
  - intros (pl & H). apply bind_ok in H as (l & El & H). apply normalize_iff in El. apply bind_ok in H as (ds & Ed & H).
    pose proof (draw_all pct fmt a l (F l El)) as D. rewrite Ed in D. exists l. split; [exact El|]. apply D.
  - intros (l & El & D). pose proof (draw_all pct fmt a l (F l El)) as Q. apply normalize_iff in El. rewrite El. cbn [bind].
    destruct (mapM _ l) as [ds|e]; [|destruct Q as [N _]; contradiction]. cbn [bind]. eexists. reflexivity.
Qed.

Lemma firstn_cover {A} (l : list A) n : (List.length l <= n)%nat -> firstn n l = l.
Proof. apply firstn_all2. Qed.

Lemma Forall2_map_r {A B C} (P : A -> C -> Prop) (g : B -> C) l m : Forall2 (fun a b => P a (g b)) l m -> Forall2 P l (map g m).
Proof. induction 1; constructor; auto. Qed.
Lemma Forall2_map_l {A B C} (P : C -> B -> Prop) (g : A -> C) l m : Forall2 (fun a b => P (g a) b) l m <-> Forall2 P (map g l) m.
Proof.
  split; [induction 1; constructor; auto|]. revert m. induction l as [|x l IH]; intros m H; inversion H; subst; constructor; auto.
Qed.
Lemma Forall2_in_l {A B} (P Q : A -> B -> Prop) l m : (forall a b, In a l -> P a b -> Q a b) -> Forall2 P l m -> Forall2 Q l m.
Proof. intros H F. induction F; constructor; [apply H; [left; reflexivity|assumption]|apply IHF; intros; apply H; [right|]; assumption]. Qed.

Lemma bucket_from l n p : In (n, p) (bucket l) -> exists lp, In lp l /\ snd lp = p.
Proof. intros H. apply bucket_in in H as (pre & lp & post & -> & _ & E & _). exists lp. split; [apply in_or_app; right; left; reflexivity|exact E]. Qed.
Lemma normalize_map l : normalize_frontiers (FMap (map (fun kv => (fst kv, Some (snd kv))) l)) None = Ok (map (fun kv => (Some (fst kv), snd kv)) l).
Proof. apply normalize_iff. constructor. Qed.
Lemma panel_plot pct fmt a l pl : (forall lp, In lp l -> frontier_ok (snd lp)) ->
  plot_frontiers pct fmt (FMap (map (fun kv => (fst kv, Some (snd kv))) (bucket l))) None a = Ok pl ->
  Forall2 (fun n c => exists p, survives l n p /\ line_of (pa_risk a) (Some n, p) c) (distinct (map panel_name l)) (curves (pl_artists pl)).
Proof.
  intros F H. unfold plot_frontiers, plot_normalized in H. rewrite normalize_map in H. cbn [bind] in H. apply bind_ok in H as (ds & Ed & H). injection H as <-. cbn [pl_artists].
  assert (F' : forall lp, In lp (map (fun kv => (Some (fst kv), snd kv)) (bucket l)) -> frontier_ok (snd lp)).
  { intros lp Hl. apply in_map_iff in Hl as ([n p] & <- & Hb). apply bucket_from in Hb as (q & Hq & E). cbn [snd]. rewrite <- E. apply F, Hq. }
  pose proof (draw_all pct fmt a _ F') as D. rewrite Ed in D. destruct D as (D & _). rewrite <- bucket_names.
  apply (proj1 (Forall2_map_l _ fst _ _)). apply (proj2 (Forall2_map_l _ (fun kv : string * pfrontier => (Some (fst kv), snd kv)) _ _)) in D.
  eapply Forall2_in_l; [|exact D]. intros [n p] c Hb Hc. cbn [fst snd] in *. exists p. split; [apply bucket_in, Hb|exact Hc].
Qed.
Lemma panel_total pct fmt a l : (forall lp, In lp l -> frontier_ok (snd lp)) -> drawable a l ->
  exists pl, plot_frontiers pct fmt (FMap (map (fun kv => (fst kv, Some (snd kv))) (bucket l))) None a = Ok pl.
Proof.
  intros F D. apply plot_accepts.
  - intros m Hm. apply normalize_iff in Hm. rewrite normalize_map in Hm. injection Hm as <-. intros lp Hl. apply in_map_iff in Hl as ([n p] & <- & Hb).
    apply bucket_from in Hb as (q & Hq & E). cbn [snd]. rewrite <- E. apply F, Hq.
  - eexists. split; [apply sup_map|]. intros lp Hl. apply in_map_iff in Hl as ([n p] & <- & Hb). apply bucket_from in Hb as (q & Hq & E). cbn [snd]. rewrite <- E. apply D, Hq.
Qed.

(** What one panel of a grid is. *)
Definition panel_spec (a : plot_args) by_ (l : list (option string * pfrontier)) (pn : panel) : Prop :=
  Forall2 (fun n c => exists p, survives (members by_ (pn_title pn) l) n p /\ line_of (pa_risk a) (Some n, p) c)
    (distinct (map panel_name (members by_ (pn_title pn) l))) (curves (pl_artists (pn_plot pn))).

Lemma ceil_div n c : (0 < c)%Z -> (0 <= n)%Z -> (n <= (n + c - 1) / c * c < n + c)%Z.
Proof. intros Hc Hn. pose proof (Z.div_mod (n + c - 1) c ltac:(lia)). pose proof (Z.mod_pos_bound (n + c - 1) c Hc). nia. Qed.

Lemma grid_spec pct fmt fs by_ labels cols legend policy a ps blank : all_ok fs labels ->
  plot_frontiers_grid pct fmt fs by_ labels cols legend policy a = Ok (ps, blank) ->
  exists l, supplied fs labels l /\ l <> [] /\ map pn_title ps = distinct (map (group_of by_) l) /\
    (forall pn, In pn ps -> panel_spec a by_ l pn /\ show_legend policy legend (List.length ps) = Some (pn_legend pn)) /\
    exists c : nat, (0 < c)%nat /\ (blank < c)%nat /\ Nat.modulo (List.length ps + blank) c = 0%nat /\
      match cols with Some k => if (k =? 0)%Z then c = List.length ps else Z.of_nat c = k | None => c = List.length ps end.
Proof.
  intros F H. unfold plot_frontiers_grid in H. apply bind_ok in H as (l & El & H). apply normalize_iff in El. specialize (F l El).
  destruct (groups by_ l) as [|g0 G0] eqn:EG; [discriminate|]. rewrite <- EG in H. set (G := groups by_ l) in *. set (n := Z.of_nat (List.length G)) in *.
  set (c := match cols with Some c => if (c =? 0)%Z then n else c | None => n end) in *.
  destruct ((_ <=? 0) || (c <=? 0))%Z eqn:E; [discriminate|]. apply Bool.orb_false_iff in E as [_ E]. apply Z.leb_gt in E.
  assert (N0 : (0 <= n)%Z) by (unfold n; lia). pose proof (ceil_div n c E N0) as CD. set (r := ((n + c - 1) / c)%Z) in *.
  rewrite firstn_cover in H by (unfold n in *; lia). apply bind_ok in H as (ps' & EP & H). injection H as <- <-. apply mapM_ok_forall2 in EP.
  assert (LP : List.length ps' = List.length G) by (symmetry; apply (Forall2_len _ _ _ EP)).
  assert (HG : G = map (fun g => (g, bucket (members by_ g l))) (distinct (map (group_of by_) l))) by apply groups_is.
  exists l. split; [exact El|]. split; [intros ->; discriminate EG|].
  assert (K : Forall2 (fun g pn => pn_title pn = fst g /\ show_legend policy legend (List.length G) = Some (pn_legend pn) /\
      plot_frontiers pct fmt (FMap (map (fun kv => (fst kv, Some (snd kv))) (snd g))) None a = Ok (pn_plot pn)) G ps').
  { eapply Forall2_imp; [|exact EP]. intros g pn Hg. cbn beta in Hg. destruct (show_legend policy legend (List.length G)) as [s|]; [|discriminate].
    apply bind_ok in Hg as (q & Eq & Hg). injection Hg as <-. auto. }
  split; [|split].
  - transitivity (map fst G).
    + clear - K. revert K. generalize (List.length G). generalize G. intros G' m K. induction K as [|g pn G2 ps [E _] K IH]; [reflexivity|]. cbn [map]. rewrite E, IH. reflexivity.
    + rewrite HG, map_map. cbn [fst]. apply map_id.
  - intros pn Hpn. rewrite LP. assert (exists g, In g G /\ pn_title pn = fst g /\ show_legend policy legend (List.length G) = Some (pn_legend pn) /\
      plot_frontiers pct fmt (FMap (map (fun kv => (fst kv, Some (snd kv))) (snd g))) None a = Ok (pn_plot pn)) as (g & Hg & E1 & E2 & E3).
    { clear - K Hpn. revert K. generalize (List.length G). generalize G. intros G' m K. induction K as [|g q G2 ps K0 K IH]; [destruct Hpn|]. destruct Hpn as [-> | Hpn].
      - exists g. split; [left; reflexivity|exact K0].
      - destruct (IH Hpn) as (g' & I1 & I2). exists g'. split; [right; exact I1|exact I2]. }
    split; [|exact E2]. unfold panel_spec. rewrite E1. rewrite HG in Hg. apply in_map_iff in Hg as (k & <- & Hk). cbn [fst snd] in *.
    apply (panel_plot pct fmt a); [|exact E3]. intros lp Hlp. apply members_in in Hlp as [Hlp _]. apply F, Hlp.
  - assert (Pn : (0 < List.length G)%nat) by (rewrite EG; cbn; lia).
    exists (Z.to_nat c). split; [lia|]. rewrite LP. split; [unfold n in *; lia|]. split.
    + replace (List.length G + (Z.to_nat (r * c) - List.length G))%nat with (Z.to_nat (r * c)) by (unfold n in *; lia).
      assert (R0 : (0 <= r)%Z) by nia. rewrite Z2Nat.inj_mul by lia. apply Nat.mod_mul. lia.
    + destruct cols as [k|]; [|unfold c, n; lia]. destruct (k =? 0)%Z eqn:K0; [unfold c, n; lia|]. apply Z2Nat.id. unfold c in E |- *. lia.
Qed.

Lemma grid_total pct fmt fs by_ labels cols legend policy a l : all_ok fs labels -> supplied fs labels l -> l <> [] -> drawable a l ->
  (forall k, cols = Some k -> (0 <= k)%Z) -> In policy ["auto"; "none"; "each"]%string ->
  exists r, plot_frontiers_grid pct fmt fs by_ labels cols legend policy a = Ok r.
Proof.
  intros F El Hl D C P. specialize (F l El). unfold plot_frontiers_grid. apply normalize_iff in El. rewrite El. cbn [bind].
  destruct (groups by_ l) as [|g0 G0] eqn:EG.
  { exfalso. rewrite groups_is in EG. destruct l as [|lp l]; [congruence|]. discriminate EG. }
  rewrite <- EG. set (G := groups by_ l) in *. set (n := Z.of_nat (List.length G)) in *. assert (N0 : (0 < n)%Z) by (unfold n; rewrite EG; cbn; lia).
  set (c := match cols with Some c => if (c =? 0)%Z then n else c | None => n end) in *.
  assert (C0 : (0 < c)%Z). { unfold c. destruct cols as [k|]; [|exact N0]. specialize (C k eq_refl). destruct (k =? 0)%Z eqn:Ek; [exact N0|]. apply Z.eqb_neq in Ek. lia. }
  pose proof (ceil_div n c C0 ltac:(lia)) as CD. set (r := ((n + c - 1) / c)%Z) in *. assert (R0 : (0 < r)%Z) by nia.
  replace ((r <=? 0) || (c <=? 0))%Z with false by (symmetry; apply Bool.orb_false_iff; split; apply Z.leb_gt; assumption).
  assert (SL : exists s, show_legend policy legend (List.length G) = Some s).
  { unfold show_legend. destruct P as [<-|[<-|[<-|[]]]]; cbn; eexists; reflexivity. }
  destruct SL as (s & Es). rewrite Es.
  match goal with |- context [mapM ?h ?xs] => destruct (mapM_total h xs) as (ys & Ey) end.
  - intros g Hg. cbn beta. assert (Hg' : In g G) by (rewrite <- (firstn_skipn (Z.to_nat (r * c)) G); apply in_or_app; left; exact Hg).
    unfold G in Hg'. rewrite groups_is in Hg'. apply in_map_iff in Hg' as (k & <- & Hk). cbn [snd fst].
    destruct (panel_total pct fmt a (members by_ k l)) as (pl & Epl).
    + intros lp Hlp. apply members_in in Hlp as [Hlp _]. apply F, Hlp.
    + intros lp Hlp. apply members_in in Hlp as [Hlp _]. apply D, Hlp.
    + rewrite Epl. cbn [bind]. eexists. reflexivity.
  - rewrite Ey. cbn [bind]. eexists. reflexivity.
Qed.

(** ** Reports *)
Lemma first_best_one n P key i j : first_best n P key i -> first_best n P key j -> i = j.
Proof.
  intros (A1 & A2 & A3 & A4) (B1 & B2 & B3 & B4). destruct (Nat.lt_trichotomy i j) as [L|[L|L]]; [|exact L|]; exfalso.
  - pose proof (B4 i L A2). pose proof (A3 j B1 B2). lra.
  - pose proof (A4 j L B2). pose proof (B3 i A1 A2). lra.
Qed.
Lemma risks_for_one f l x y : risks_for f l x -> risks_for f l y -> x = y.
Proof. intros A B. apply risk_vector_ok in A. apply risk_vector_ok in B. congruence. Qed.
Lemma is_portfolio_one f x i s s' : is_portfolio f x i s -> is_portfolio f x i s' -> s = s'.
Proof. destruct s, s'. unfold is_portfolio. cbn. intros (_ & -> & -> & -> & ->) (_ & -> & -> & -> & ->). reflexivity. Qed.

Lemma to_int_cut x : cut_to x (to_int x).
Proof.
  unfold cut_to, to_int. destruct (Rleb_spec 0 x).
  - left. destruct (base_Int_part x). lra.
  - right. rewrite opp_IZR. destruct (base_Int_part (- x)). lra.
Qed.
Lemma cut_unique x z z' : cut_to x z -> cut_to x z' -> z = z'.
Proof.
  intros [[H1 H2]|[H1 H2]] [[H3 H4]|[H3 H4]]; try lra;
    assert (A : (z < z' + 1)%Z) by (apply lt_IZR; rewrite plus_IZR; lra); assert (B : (z' < z + 1)%Z) by (apply lt_IZR; rewrite plus_IZR; lra); lia.
Qed.
Lemma report_select_chosen argsort f key kw lab s : well_formed f ->
  report_select argsort f key kw lab = Ok s <-> chosen argsort f kw lab key s.
Proof.
  intros W. split.
  - unfold report_select. cbv zeta. intros H.
    assert (EX : forall l, existsb (String.eqb key) l = true -> In key l).
    { intros l E. apply existsb_exists in E as (k & Hk & E). apply seqb_spec in E. subst. exact Hk. }
    destruct (existsb (String.eqb key) ["min_risk"; "minimum_risk"]%string) eqn:E1; [apply ch_min; auto|].
    destruct (existsb (String.eqb key) ["max_return"; "maximum_return"]%string) eqn:E2; [apply ch_max; auto|].
    destruct (existsb (String.eqb key) ["tangency"; "max_sharpe"; "sharpe"]%string) eqn:E3.
    { destruct (lookup "risk_free_rate" kw) as [r|] eqn:El; eapply ch_sharpe; eauto. }
    unfold kw_num in H.
    destruct (existsb (String.eqb key) ["risk_target"; "max_return_subject_to_risk"]%string) eqn:E4.
    { destruct (lookup "max_risk" kw) eqn:El; [|discriminate]. eapply ch_risk; eauto. }
    destruct (existsb (String.eqb key) ["return_target"; "min_risk_subject_to_return"]%string) eqn:E5.
    { destruct (lookup "min_return" kw) eqn:El; [|discriminate]. eapply ch_return; eauto. }
    destruct (existsb (String.eqb key) ["risk_percentile"; "risk_pct"; "percentile"]%string) eqn:E6.
    { destruct (lookup "percentile" kw) eqn:El; [|discriminate]. eapply ch_pct; eauto. }
    destruct (existsb (String.eqb key) ["risk_match"; "risk_nearest"]%string) eqn:E7.
    { destruct (lookup "target_risk" kw) eqn:El; [|discriminate]. eapply ch_match; eauto. }
    destruct (existsb (String.eqb key) ["index"; "column"]%string) eqn:E8; [|discriminate].
    destruct (lookup "index" kw) as [v|] eqn:El; [|discriminate]. cbn [bind] in H. apply bind_ok in H as (i & Ei & H).
    apply bind_ok in H as (x & Ex & H). injection H as <-. apply np_index_ok in Ei. apply risk_vector_ok in Ex. destruct W as [Lc _]. rewrite Lc in Ei.
    eapply (ch_index argsort f kw lab key _ v (to_int v)); [apply EX, E8|exact El|exact Ex|apply pick_is; lia|apply to_int_cut|lia].
  - intros C. destruct C as [k s Hk H|k s Hk H|k s r Hk Hr H|k s v Hk Hv H|k s v Hk Hv H|k s v Hk Hv H|k s v Hk Hv H|k s v z i x Hk Hv Hx Hp Hc Hi];
      cbn [In] in Hk; repeat destruct Hk as [<-|Hk]; try contradiction; unfold report_select, kw_num; cbn [existsb String.eqb Ascii.eqb Bool.eqb orb];
      try rewrite Hv; cbn [bind]; try exact H; try (destruct Hr as [-> | [-> ->]]; exact H).
    all: apply (cut_unique _ _ _ (to_int_cut v)) in Hc; subst z; destruct W as [Lc _]; rewrite Lc; replace (np_index (size f) (to_int v)) with (Ok i : res nat) by (symmetry; apply np_index_ok; destruct Hp as [Hp _]; lia);
      cbn [bind]; rewrite (proj2 (risk_vector_ok _ _ _) Hx); cbn [bind]; f_equal; apply (is_portfolio_one f x i); [apply pick_is, Hp|exact Hp].
Qed.

Lemma chosen_portfolio argsort f kw lab key s : well_formed f -> chosen argsort f kw lab key s ->
  exists i x, is_portfolio f x i s /\
    (risks_for f lab x \/ (x = f_risk f /\ In key ["max_return"; "maximum_return"; "tangency"; "max_sharpe"; "sharpe"]%string)).
Proof.
  intros W C. destruct C as [k s Hk H|k s Hk H|k s r Hk Hr H|k s v Hk Hv H|k s v Hk Hv H|k s v Hk Hv H|k s v Hk Hv H|k s v z i x Hk Hv Hx Hp Hc Hi].
  - apply min_risk_ok in H as (x & i & H1 & H2 & _); eauto.
  - apply max_return_ok in H as (i & H1 & _). exists i, (f_risk f). split; [exact H1|]. right. split; [reflexivity|]. cbn [In] in *. tauto.
  - apply tangency_ok in H as (i & H1 & _); [|exact W]. exists i, (f_risk f). split; [exact H1|]. right. split; [reflexivity|]. cbn [In] in *. tauto.
  - apply at_risk_ok in H as (x & i & H1 & H2 & _); eauto.
  - apply at_return_ok in H as (x & i & H1 & H2 & _); eauto.
  - apply at_percentile_ok in H as (q & x & i & _ & H1 & H2 & _); eauto.
  - apply closest_risk_ok in H as (x & i & H1 & H2 & _); eauto.
  - eauto.
Qed.

Lemma plot_one pct fmt p a pl : frontier_ok p -> plot_frontiers pct fmt (FOne p) None a = Ok pl ->
  exists name x qs, curves (pl_artists pl) = [(name, x, f_ret (pf_f p))] /\ risks_for (pf_f p) (pa_risk a) x /\ named [pa_risk a] (f_measure (pf_f p)) name /\
    Forall2 (highlight_records a (None, p)) (pa_highlight a) qs /\
    markers (pl_artists pl) = map (fun r => (s_risk (rc_point r), s_return (rc_point r))) (List.concat qs) /\
    drawable a [(None, p)].
Proof.
  intros F H. unfold plot_frontiers, plot_normalized in H. change (normalize_frontiers (FOne p) None) with (Ok [(@None string, p)]) in H. cbn [bind] in H.
  apply bind_ok in H as (ds & Ed & H). injection H as <-. cbn [pl_artists].
  assert (F' : forall lp : option string * pfrontier, In lp [(None, p)] -> frontier_ok (snd lp)) by (intros lp [<-|[]]; exact F).
  pose proof (draw_all pct fmt a _ F') as D. rewrite Ed in D. destruct D as (D1 & _ & _ & (rss & D2 & D2') & D3 & D4).
  inversion D1 as [|? c ? cs Hc Hcs E1 E2]. subst. inversion Hcs; subst. destruct c as [[name x] y]. destruct Hc as (N & R & Ey). cbn [fst snd] in *. subst y.
  inversion D2 as [|? rs ? rs' (qs & Q1 & Q2) Hr]; subst. inversion Hr; subst. exists name, x, qs. rewrite D2' in D3. cbn [List.concat] in D3. rewrite app_nil_r in D3.
  rewrite D3. repeat split; auto.
  - destruct N as [pre post E N0 N1|N1 N2].
    + destruct pre as [|c pre]; cbn [app] in E; [discriminate E|]. injection E as <- E. apply (named_first _ _ _ pre post); auto. intros c Hc. apply N1. right. exact Hc.
    + apply named_last; auto. intros c Hc. apply N1. right. exact Hc.
  - apply (D4 lp). exact H.
  - apply (D4 lp). exact H.
Qed.

Definition off_curve : list string := ["maximum_return"; "max_sharpe"; "sharpe"]%string.
Lemma eqbs_in key l : existsb (String.eqb key) l = true <-> In key l.
Proof. fold (seenb key l). apply seenb_in. Qed.

Lemma report_spec argsort asc desc pct fmt lower rng p sel kw lab ov pts rp : frontier_ok p -> sorts_asc asc -> sorts_desc desc ->
  plot_frontier_report argsort asc desc pct fmt lower rng p sel kw lab ov pts None = Ok rp ->
  let f := pf_f p in
  exists s i x name px bs, chosen argsort f kw lab (lower sel) s /\ risks_for f lab x /\ (i < size f)%nat /\
    s_weights s = nth i (f_cols f) [] /\
    curves (pl_artists (rp_plot rp)) = [(name, x, f_ret f)] /\
    markers (pl_artists (rp_plot rp)) ++ match rp_dot rp with Some d => [d] | None => [] end = [(px, ret_of f i)] /\
    (px = nthr x i \/ (px = nthr (f_risk f) i /\ In (lower sel) off_curve)) /\
    b_cols (rp_bars rp) = [bs] /\
    Permutation bs (combine (match f_names f with Some l => l | None => map rng (seq 0 (List.length (s_weights s))) end) (s_weights s)) /\
    nondecreasing (map snd bs).
Proof.
  intros F HA HD H. cbv zeta. set (f := pf_f p). unfold plot_frontier_report in H. cbv zeta in H. fold f in H. set (key := lower sel) in *.
  apply bind_ok in H as ([[w dot] rf] & E0 & H). apply bind_ok in E0 as (s & Es & E0). injection E0 as <- <- <-.
  apply report_select_chosen in Es; [|apply F]. apply bind_ok in H as (pl & Ep & H). apply bind_ok in H as (b & Eb & H). injection H as <-. cbn [rp_plot rp_dot rp_bars].
  apply plot_one in Ep as (name & x & qs & C1 & C2 & C3 & C4 & C5 & C6); [|exact F]. cbn [pa_risk pa_highlight] in C2, C4. fold f in C1, C2.
  destruct (plot_series asc desc (labelled_weights rng s) None BarH true HA HD) as (shown & hidden & b' & B1 & B2 & B3 & B4 & B5 & _).
  rewrite Eb in B1. injection B1 as <-.
  assert (BS : b_cols b = [shown] /\ Permutation shown (combine (match f_names f with Some l => l | None => map rng (seq 0 (List.length (s_weights s))) end) (s_weights s)) /\ nondecreasing (map snd shown)).
  { pose proof (chosen_portfolio _ _ _ _ _ _ (proj1 F) Es) as (i & x' & Hp & _). split; [exact B2|]. split; [|exact B5]. cbn [kept] in B4. assert (hidden = []).
    { apply Permutation_length in B3. rewrite app_length in B3. destruct hidden; [reflexivity|cbn in B3; lia]. }
    subst hidden. rewrite app_nil_r in B3. unfold labelled_weights in B3. destruct Hp as (_ & EN & _). rewrite EN in B3. exact B3. }
  destruct BS as (BS1 & BS2 & BS3).
  destruct (existsb (String.eqb key) ["min_risk"; "max_return"; "tangency"]%string) eqn:K.
  - (* highlighted *)
    inversion C4 as [|? rs ? qs' HR Hq]; subst. inversion Hq; subst. clear Hq C4. cbn [List.concat] in C5. rewrite app_nil_r in C5.
    destruct (C6 (None, p) (or_introl eq_refl)) as [_ KM]. specialize (KM key (or_introl eq_refl)). cbn [pa_rf] in KM.
    assert (NT : key <> "tangency"%string).
    { intros E. destruct KM as [Q|[Q|[_ Q]]]; try (rewrite E in Q; discriminate Q). rewrite E in Q. cbn in Q. congruence. }
    destruct HR as (x2 & R1 & HR). cbn [pa_risk snd] in R1. fold f in R1, HR. pose proof (risks_for_one _ _ _ _ C2 R1) as <-.
    destruct HR as [(r & j & -> & R2 & R3 & _)|(_ & Q & _)]; [|cbn in Q; contradiction].
    cbn [map] in C5. rewrite C5. cbn [app].
    assert (PJ : exists y, is_portfolio f y j s).
    { cbn [pa_rf] in R2. destruct R2 as [[Q R2]|[[Q R2]|[Q _]]]; [| |contradiction].
      - assert (Es' : min_risk f lab = Ok s).
        { destruct Es as [k s Hk H|k s Hk H|k s r0 Hk Hr H|k s v Hk Hv H|k s v Hk Hv H|k s v Hk Hv H|k s v Hk Hv H|k s v z0 i0 x0 Hk Hv Hx Hp0 Hc Hi]; [exact H|..];
            rewrite Q in Hk; cbn [In] in Hk; exfalso; repeat destruct Hk as [Hk|Hk]; try discriminate Hk; exact Hk. }
        apply min_risk_ok in Es' as (y & k & Y1 & Y2 & Y3); [|apply F]. pose proof (risks_for_one _ _ _ _ C2 Y1) as <-.
        exists x. rewrite (first_best_one _ _ _ _ _ R2 Y3). exact Y2.
      - assert (Es' : max_return f = Ok s).
        { destruct Es as [k s Hk H|k s Hk H|k s r0 Hk Hr H|k s v Hk Hv H|k s v Hk Hv H|k s v Hk Hv H|k s v Hk Hv H|k s v z0 i0 x0 Hk Hv Hx Hp0 Hc Hi]; [|exact H|..];
            rewrite Q in Hk; cbn [In] in Hk; exfalso; repeat destruct Hk as [Hk|Hk]; try discriminate Hk; exact Hk. }
        apply max_return_ok in Es' as (k & Y2 & Y3). exists (f_risk f). rewrite (first_best_one _ _ _ _ _ R2 Y3). exact Y2. }
    destruct PJ as (y & PJ). destruct R3 as (Z1 & Z2 & Z3 & Z4 & Z5). rewrite Z4, Z5.
    exists s, j, x, name, (nth j x 0), shown. split; [exact Es|]. split; [exact C2|]. split; [exact Z1|]. split; [apply PJ|]. split; [exact C1|].
    split; [cbn [existsb] in K; rewrite ?K; reflexivity|]. split; [left; reflexivity|]. auto.
  - (* a separate dot *)
    pose proof (chosen_portfolio _ _ _ _ _ _ (proj1 F) Es) as (i & x' & Hp & Hx').
    inversion C4; subst. cbn [List.concat map] in C5. rewrite C5. cbn [app]. destruct Hp as (Z1 & Z2 & Z3 & Z4 & Z5). rewrite Z4, Z5.
    exists s, i, x, name, (nth i x' 0), shown. split; [exact Es|]. split; [exact C2|]. split; [exact Z1|]. split; [exact Z3|]. split; [exact C1|].
    split; [cbn [existsb] in K; rewrite ?K; reflexivity|]. split; [|auto]. destruct Hx' as [R|[-> Hk]].
    + left. rewrite (risks_for_one _ _ _ _ C2 R). reflexivity.
    + right. split; [reflexivity|]. unfold off_curve. cbn [In] in *. destruct Hk as [Hk|[Hk|[Hk|Hk]]]; [|auto|exfalso|auto];
        rewrite <- Hk in K; discriminate K.
Qed.

Lemma report_accepts argsort asc desc pct fmt lower rng p sel kw lab ov pts : frontier_ok p ->
  (exists rp, plot_frontier_report argsort asc desc pct fmt lower rng p sel kw lab ov pts None = Ok rp) <->
  lower sel <> "tangency"%string /\ ~ unknown_label (pf_f p) lab /\ exists s, chosen argsort (pf_f p) kw lab (lower sel) s.
Proof.
  intros F. unfold plot_frontier_report. cbv zeta. set (key := lower sel). split.
  - intros (rp & H). apply bind_ok in H as ([[w dot] rf] & E0 & H). apply bind_ok in E0 as (s & Es & E0). injection E0 as <- <- <-.
    apply report_select_chosen in Es; [|apply F]. apply bind_ok in H as (pl & Ep & _). apply plot_one in Ep as (name & x & qs & _ & C2 & _ & _ & _ & C6); [|exact F].
    cbn [pa_risk] in C2. split; [|split; [apply risk_known; eauto|eauto]]. intros E. destruct (C6 (None, p) (or_introl eq_refl)) as [_ KM]. cbn [pa_highlight pa_rf] in KM.
    rewrite E in KM. specialize (KM "tangency"%string (or_introl eq_refl)). destruct KM as [Q|[Q|[_ Q]]]; [discriminate Q|discriminate Q|]. cbn in Q. congruence.
  - intros (NT & U & s & C). apply report_select_chosen in C; [|apply F]. rewrite C. cbn [bind].
    match goal with |- context [plot_frontiers pct fmt (FOne p) None ?a] => assert (A : exists pl, plot_frontiers pct fmt (FOne p) None a = Ok pl) end.
    { apply plot_accepts.
      - intros l Hl. inversion Hl; subst. intros lp [<-|[]]. exact F.
      - exists [(None, p)]. split; [constructor|]. intros lp [<-|[]]. cbn [snd pa_risk pa_highlight pa_rf]. split; [exact U|].
        intros m Hm. destruct (existsb (String.eqb key) ["min_risk"; "max_return"; "tangency"]%string) eqn:K; [|destruct Hm]. destruct Hm as [<-|[]].
        apply eqbs_in in K. cbn [In] in K. destruct K as [<-|[<-|[K|[]]]]; [auto|auto|congruence]. }
    destruct A as (pl & ->). cbn [bind]. unfold plot_weights. cbn [bind]. eexists. reflexivity.
Qed.

Lemma Forall2_get {A B} (P : A -> B -> Prop) l m a : Forall2 P l m -> In a l -> exists b, In b m /\ P a b.
Proof.
  induction 1 as [|x y l m H F IH]; [intros []|]. intros [-> | Ha]; [exists y; split; [left; reflexivity|exact H]|].
  destruct (IH Ha) as (b & H1 & H2). exists b. split; [right; exact H1|exact H2].
Qed.
Lemma NoDup_map_inj {A B} (f : A -> B) l x y : NoDup (map f l) -> In x l -> In y l -> f x = f y -> x = y.
Proof.
  induction l as [|z l IH]; [intros _ []|]. cbn [map]. intros N Hx Hy E. inversion N as [|? ? N1 N2]; subst.
  destruct Hx as [-> | Hx], Hy as [-> | Hy]; [reflexivity| | |auto]; exfalso; apply N1.
  - rewrite E. apply in_map, Hy.
  - rewrite <- E. apply in_map, Hx.
Qed.
Lemma survives_unique l lp p : NoDup (map panel_name l) -> In lp l -> survives l (panel_name lp) p -> p = snd lp.
Proof.
  intros N H (pre & q & post & E & E1 & E2 & _). assert (q = lp); [|congruence]. apply (NoDup_map_inj panel_name l); auto. rewrite E. apply in_or_app. right. left. reflexivity.
Qed.
