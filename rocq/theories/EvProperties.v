(** C173: flexible views of several kinds with a solver that stops early. *)
From Coq Require Import FunctionalExtensionality.
From Verif Require Import RBase QpBase SortLib OptModel OptProofs3 MomSpec BlModel EpModel EpSpec EpProofs5 FvSpec FvProofs FvProofs3 FvProofs4 FvProofs6 FvProofs7 FvProperties EtSpec EtProofs2 EtProofs3 EtProperties EvSpec EvProofs.
Open Scope R_scope.
Open Scope list_scope.

Lemma ev_call minimize argsort chol normals pr mean vol var skew corr r :
  flexible_views minimize argsort chol normals pr (dicts mean vol var skew corr [] [] false) = Ok r ->
  fv_setup chol normals pr = Ok (f_pandas r, f_assets r, f_S r, f_N r, f_R r, f_p0 r) /\
  posterior minimize argsort (f_assets r) (f_S r) (f_R r) (f_p0 r) mean vol var skew corr [] [] false = Ok (f_q r).
Proof.
  intros H. destruct (fv_inv _ _ _ _ _ _ _ H) as [E [_ [m' [vo [va [sk [cv [E1 [E2 [E3 [E4 [E5 [E6 [E7 _]]]]]]]]]]]]]].
  unfold dicts in *. cbn [vs_mean vs_vol vs_var vs_skew vs_corr vs_cvar vs_quantile vs_rank vs_sequential to_dict apply_rank] in *.
  injection E1 as <-. injection E2 as <-. injection E3 as <-. injection E4 as <-. injection E5 as <-. injection E6 as E6. rewrite <- E6 in E7. auto.
Qed.
Lemma ev_prior chol normals pr r : fv_setup chol normals pr = Ok (f_pandas r, f_assets r, f_S r, f_N r, f_R r, f_p0 r) -> sumn (f_S r) (f_p0 r) = 1 -> is_prob (f_S r) (f_p0 r).
Proof. intros E P1. destruct (setup_prior _ _ _ _ _ _ _ _ _ E) as [_ Pp]. split; auto. intros s Hs. apply Rlt_le. auto. Qed.

(** Moment views of all kinds at once: the posterior is a positive distribution, and every view, of whatever kind, fixes or bounds
    its raw moment up to the tolerance, given the moments of [l]: of the prior without mean views, else of a distribution that
    meets the mean views up to the tolerance. *)
Theorem flexible_all_views_within : forall eps minimize argsort chol normals pr mean vol var skew corr r, sound_tol eps minimize -> 0 <= eps < 1000 ->
  flexible_views minimize argsort chol normals pr (dicts mean vol var skew corr [] [] false) = Ok r ->
  sumn (f_S r) (f_p0 r) = 1 -> (exists mt vs, In (mt, vs) (kinds mean vol var skew corr) /\ vs <> []) ->
  let T := f_S r in let X := f_R r in let L := f_assets r in let tol := eps / (1000 - eps) in
  (forall s, 0 < f_q r s) /\ is_prob T (f_q r) /\
  exists l, is_prob T l /\ (mean = [] -> l = f_p0 r) /\
    (mean = [] \/ mean_views_within tol L T X l mean \/ vol = [] /\ var = [] /\ skew = [] /\ corr = []) /\
    forall mt vs, In (mt, vs) (kinds mean vol var skew corr) -> views_within tol L T X l (f_q r) mt vs.
Proof.
  intros eps minimize argsort chol normals pr mean vol var skew corr r So He H P1 NE T X L tol. destruct (ev_call _ _ _ _ _ _ _ _ _ _ _ H) as [E Q].
  destruct (simultaneous_tol _ _ _ _ _ _ _ _ _ _ _ _ _ So He (ev_prior _ _ _ _ E P1) NE Q) as [l [c [Pl [L0 [Lm [B D]]]]]].
  destruct (do_ep_within _ _ _ _ _ _ So He D) as [P [Pq W]]. split; auto. split; auto. exists l. split; auto. split; auto. split.
  - destruct Lm as [-> |[V|O]]; auto. right. left. intros key v I. destruct (V key v I ltac:(discriminate)) as [x [f [S M]]].
    assert (F : f = fun t => t) by (inversion S; reflexivity). subst f. exists x. split.
    + inversion S; subst; [apply (stat_mean _ _ _ _ a i)|apply (stat_diff _ _ _ _ a b)]; auto.
    + destruct v as [t|o t|lo hi|]; exact M.
  - apply (all_tol _ _ _ _ _ _ _ _ _ B W).
Qed.
Print Assumptions flexible_all_views_within.

(** On an asset with an equality view on its mean, volatility and variance views are missed by at most an explicit multiple of
    the tolerance. *)
Theorem flexible_vol_with_mean_within : forall eps minimize argsort chol normals pr mean vol var skew corr r a i m, sound_tol eps minimize -> 0 <= eps < 1000 ->
  flexible_views minimize argsort chol normals pr (dicts mean vol var skew corr [] [] false) = Ok r -> sumn (f_S r) (f_p0 r) = 1 ->
  column (f_assets r) a i -> In (KOne a, SNum m) mean \/ In (KOne a, SOp Eq m) mean ->
  let tol := eps / (1000 - eps) in let V := var_of (f_S r) (f_q r) (f_R r) i in
  Rabs (f_mean r i - m) <= tol * (1 + Rabs m) /\
  (forall v, In (KOne a, v) var -> meets_slack (variance_slack tol m) V v) /\
  (forall v, In (KOne a, v) vol -> meets_slack (variance_slack tol m) V (map_spec (fun t => t ^ 2) v)) /\
  (forall t, In (KOne a, SNum t) vol -> 0 < t -> Rabs (vol_of (f_S r) (f_q r) (f_R r) i - t) <= variance_slack tol m (t ^ 2) / t).
Proof.
  intros eps minimize argsort chol normals pr mean vol var skew corr r a i m So He H P1 C I tol V.
  destruct (ev_call _ _ _ _ _ _ _ _ _ _ _ H) as [E Q].
  assert (NE : exists mt vs, In (mt, vs) (kinds mean vol var skew corr) /\ vs <> []) by (exists MMean, mean; split; [left; auto|]; intros ->; destruct I as [[]|[]]).
  destruct (simultaneous_tol _ _ _ _ _ _ _ _ _ _ _ _ _ So He (ev_prior _ _ _ _ E P1) NE Q) as [l [c [Pl [_ [Lm [B D]]]]]].
  destruct (do_ep_within _ _ _ _ _ _ So He D) as [_ [Pq W]]. fold tol in Lm, W.
  destruct (all_tol _ _ _ _ _ _ _ _ _ B W) as [_ A]. assert (T0 : 0 <= tol) by (unfold tol; apply Rmult_le_pos; [lra|apply Rlt_le, Rinv_0_lt_compat; lra]).
  pose proof (mean_within _ _ _ _ _ _ _ _ _ _ C (A MMean mean (or_introl eq_refl)) I) as Mq.
  assert (Ml : vol <> [] \/ var <> [] -> Rabs (mean_of (f_S r) l (f_R r) i - m) <= tol * (1 + Rabs m)).
  { intros Nv. destruct Lm as [-> |[Vm|[-> [-> _]]]]; [destruct I as [[]|[]]|eapply mean_within; eauto|destruct Nv; congruence]. }
  assert (KV : forall v, In (KOne a, v) var -> meets_slack (variance_slack tol m) V v).
  { intros v Iv. destruct (A MVar var (or_intror (or_intror (or_introl eq_refl))) _ _ Iv ltac:(discriminate)) as [x [f [S M]]]. inversion S; subst.
    rewrite (column_fun _ _ _ _ H1 C) in M. rewrite second_moment in M by apply Pq.
    assert (Z : map_spec (fun t => t) v = v) by (destruct v; reflexivity). rewrite <- Z. apply (slack_spec tol m _ _ _ (fun t => t) v T0 Mq (Ml ltac:(right; intros ->; destruct Iv)) M). }
  assert (KS : forall v, In (KOne a, v) vol -> meets_slack (variance_slack tol m) V (map_spec (fun t => t ^ 2) v)).
  { intros v Iv. destruct (A MVol vol (or_intror (or_introl eq_refl)) _ _ Iv ltac:(discriminate)) as [x [f [S M]]]. inversion S; subst.
    rewrite (column_fun _ _ _ _ H1 C) in M. rewrite second_moment in M by apply Pq.
    apply (slack_spec tol m _ _ _ (fun t => t ^ 2) v T0 Mq (Ml ltac:(left; intros ->; destruct Iv)) M). }
  split; [|split; [|split]]; auto.
  - destruct (flexible_moments _ _ _ _ _ _ _ H) as [Me _]. rewrite Me. exact Mq.
  - intros t Iv Ht. specialize (KS _ Iv). cbn [map_spec meets_slack] in KS. set (s := variance_slack tol m (t ^ 2)) in *.
    assert (V2 : vol_of (f_S r) (f_q r) (f_R r) i ^ 2 = V) by (apply vol_sq, Pq). assert (V0 : 0 <= vol_of (f_S r) (f_q r) (f_R r) i) by apply sqrt_pos.
    set (y := vol_of (f_S r) (f_q r) (f_R r) i) in *. rewrite <- V2 in KS. replace (y ^ 2 - t ^ 2) with ((y - t) * (y + t)) in KS by ring. rewrite Rabs_mult, (Rabs_right (y + t)) in KS by lra.
    apply Rmult_le_reg_r with t; auto. unfold Rdiv. rewrite Rmult_assoc, Rinv_l, Rmult_1_r by lra. eapply Rle_trans; [|exact KS]. apply Rmult_le_compat_l; [apply Rabs_pos|lra].
Qed.
Print Assumptions flexible_vol_with_mean_within.

(** The posterior is hardly further from the prior than any distribution that meets all views exactly with the moments of [l]. *)
Theorem flexible_all_views_near_optimal : forall eps B minimize argsort chol normals pr mean vol var skew corr r, sound_near eps B minimize -> 0 <= eps < 1000 ->
  flexible_views minimize argsort chol normals pr (dicts mean vol var skew corr [] [] false) = Ok r ->
  sumn (f_S r) (f_p0 r) = 1 -> (exists mt vs, In (mt, vs) (kinds mean vol var skew corr) /\ vs <> []) -> pair_keys corr ->
  let T := f_S r in let X := f_R r in let L := f_assets r in let ks := kinds mean vol var skew corr in
  exists l, is_prob T l /\ (mean = [] -> l = f_p0 r) /\
    (mean = [] \/ mean_views_within (eps / (1000 - eps)) L T X l mean \/ vol = [] /\ var = [] /\ skew = [] /\ corr = []) /\
    forall w, is_prob T w -> (forall s, (s < T)%nat -> exp (-700) <= w s) -> all_agree L T X l w ks -> all_hold L T X w ks ->
      kl T (f_q r) (f_p0 r) <= (kl T w (f_p0 r) + eps / 1000 * (B + 2 * INR (view_count ks) + 2)) / (1 - eps / 1000).
Proof.
  intros eps B minimize argsort chol normals pr mean vol var skew corr r So He H P1 NE PK T X L ks. destruct (ev_call _ _ _ _ _ _ _ _ _ _ _ H) as [E Q]. pose proof (ev_prior _ _ _ _ E P1) as Pp.
  destruct (simultaneous_tol _ _ _ _ _ _ _ _ _ _ _ _ _ (near_tol _ _ _ So) He Pp NE Q) as [l [c [Pl [L0 [Lm [Bc D]]]]]]. exists l. split; auto. split; auto. split.
  - destruct Lm as [-> |[V|O]]; auto. right. left. intros key v I. destruct (V key v I ltac:(discriminate)) as [x [f [S M]]].
    assert (F : f = fun t => t) by (inversion S; reflexivity). subst f. exists x. split.
    + inversion S; subst; [apply (stat_mean _ _ _ _ a i)|apply (stat_diff _ _ _ _ a b)]; auto.
    + destruct v as [t|o t|lo hi|]; exact M.
  - intros w Pw Fl Ag Ho. eapply Rle_trans; [apply (do_ep_near eps B minimize T (f_p0 r) c (f_q r) w So He Pp D Pw)|].
    + apply (all_blocks_sat L T X _ _ w Pw _ _ _ Bc); auto; [|split; intros ? ? []]. intros mt vs I. split.
      * intros ->. destruct I as [I|[I|[I|[I|[I|[]]]]]]; injection I; intros; try discriminate. subst vs. exact PK.
      * intros i Hv. apply (Ag mt vs I i Hv).
    + exact Fl.
    + apply grow_bound; auto. apply all_len in Bc. cbn [snd List.length plus] in Bc. exact Bc.
Qed.
Print Assumptions flexible_all_views_near_optimal.

(** Without mean views, two solvers give close probabilities. *)
Theorem flexible_all_views_solver_tolerance : forall eps B B' minimize minimize' argsort argsort' chol normals pr vol var skew corr r r',
  sound_near eps B minimize -> sound_near eps B' minimize' -> 0 <= eps < 1000 ->
  flexible_views minimize argsort chol normals pr (dicts [] vol var skew corr [] [] false) = Ok r ->
  flexible_views minimize' argsort' chol normals pr (dicts [] vol var skew corr [] [] false) = Ok r' ->
  sumn (f_S r) (f_p0 r) = 1 -> (exists mt vs, In (mt, vs) (kinds [] vol var skew corr) /\ vs <> []) ->
  l1_dist (f_S r) (f_q r) (f_q r') <= 6 * sqrt (eps / 1000 * (B + B' + 2 * INR (view_count (kinds [] vol var skew corr)))) / (1 - eps / 1000).
Proof.
  intros eps B B' minimize minimize' argsort argsort' chol normals pr vol var skew corr r r' So So' He H H' P1 NE.
  destruct (ev_call _ _ _ _ _ _ _ _ _ _ _ H) as [E Q]. destruct (ev_call _ _ _ _ _ _ _ _ _ _ _ H') as [E' Q']. rewrite E in E'. injection E' as _ EL ES _ EX EP.
  rewrite <- EL, <- ES, <- EX, <- EP in Q'. pose proof (ev_prior _ _ _ _ E P1) as Pp.
  destruct (simultaneous_tol _ _ _ _ _ _ _ _ _ _ _ _ _ (near_tol _ _ _ So) He Pp NE Q) as [l [c [_ [L0 [_ [Bc D]]]]]].
  destruct (simultaneous_tol _ _ _ _ _ _ _ _ _ _ _ _ _ (near_tol _ _ _ So') He Pp NE Q') as [l' [c' [_ [L0' [_ [Bc' D']]]]]].
  rewrite (L0 eq_refl) in Bc. rewrite (L0' eq_refl), Bc in Bc'. injection Bc' as <-.
  eapply Rle_trans; [apply (do_ep_pair _ _ _ _ _ _ _ _ _ _ So So' He D D')|]. apply grow_sqrt; auto. apply all_len in Bc. cbn [snd List.length plus] in Bc. exact Bc.
Qed.
Print Assumptions flexible_all_views_solver_tolerance.

(** Two equally likely scenarios (1 and 0 for asset B), a variance view of 1/20 on B, and a solver that stops early: the second
    moment should be 3/10 and is less. *)
Definition keyB := KOne (LStr "B"%string).
Example early_variance_view : exists r, sound_near 1 4 (try_minimize 1 4 early) /\
  flexible_views (try_minimize 1 4 early) (argsort_by Rleb 0) ExistProperties.best_chol (fun _ _ _ _ => 0) prior2 (dicts [] [] [(keyB, SNum (1 / 20))] [] [] [] [] false) = Ok r /\
  sumn (f_S r) (f_p0 r) = 1 /\ expectation (f_S r) (f_q r) (fun s => f_R r s 1%nat ^ 2) < 3 / 10 /\
  views_within (1 / 999) (f_assets r) (f_S r) (f_R r) (f_p0 r) (f_q r) MVar [(keyB, SNum (1 / 20))].
Proof.
  destruct (setup2 ExistProperties.best_chol (fun _ _ _ _ => 0)) as [p0 [E [P0 P1]]]. destruct early_stop as [q [Hq Lq]].
  assert (M0 : q_mean 2 X2 p0 1%nat = 1 / 2) by (unfold q_mean, X2; cbn; lra).
  assert (Eq : posterior (try_minimize 1 4 early) (argsort_by Rleb 0) lab2 2 X2 p0 [] [] [(keyB, SNum (1 / 20))] [] [] [] [] false = Ok q).
  { unfold posterior. cbn [nonempty andb bind all_blocks build_constraints view_row keyB key_idx]. change (asset_idx lab2 (LStr "B"%string)) with (Ok 1%nat). cbn [bind parse_specs add_specs].
    assert (Z : Rleb 0 (1 / 20) = true) by (apply Rleb_true; lra). rewrite Z. cbn [guard bind add_row fst snd app nonempty orb cvar_steps]. 
    unfold do_ep. cbn [fst snd app]. replace (map p0 (seq 0 2)) with [1 / 2; 1 / 2] by (cbn [map seq]; rewrite P0, P1; reflexivity).
    match goal with |- context [entropy_pooling _ _ ?v _ _] => replace v with view_rows end; [rewrite Hq; reflexivity|].
    unfold view_rows, ones_row. f_equal. rewrite M0. replace (1 / 20 + (1 / 2) ^ 2) with (3 / 10) by lra. f_equal.
    apply functional_extensionality. intros [|[|s]]; unfold X2, of_list; cbn; try ring. destruct s; ring. }
  pose proof (fv_build _ _ _ _ _ _ _ _ _ _ _ _ _ _ _ _ _ _ _ _ E ltac:(discriminate) Eq) as R. eexists. split; [apply try_sound|]. split; [exact R|].
  assert (S1 : sumn 2 p0 = 1) by (cbn; lra).
  destruct (flexible_all_views_within 1 _ _ _ _ _ _ _ _ _ _ _ (near_tol _ _ _ (try_sound 1 4 early)) ltac:(lra) R S1) as [_ [_ [l [_ [L0 [_ A]]]]]].
  { exists MVar, [(keyB, SNum (1 / 20))]. split; [right; right; left; reflexivity|discriminate]. }
  rewrite (L0 eq_refl) in A. cbn [f_assets f_S f_q f_R f_p0] in *. split; auto. split.
  - unfold expectation, X2. cbn. lra.
  - replace (1 / 999) with (1 / (1000 - 1)) by lra. apply (A MVar _ (or_intror (or_intror (or_introl eq_refl)))).
Qed.
