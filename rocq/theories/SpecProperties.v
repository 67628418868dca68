(** Portfolio specs and the ensemble entry point: properties C102-C109. *)
From Coq Require Import String Ascii Permutation.
From Verif Require Import RBase QpBase SortLib RiskModel ConsModel ConsSpec MomModel MomSpec MomProofs DistModel DistSpec DistProofs DistProofs2 DistProperties ConvModel EpModel StModel OptModel OptSpec OptProofs OptProofs6 EnsModel EnsSpec EnsProofs AsmModel FrModel FrSpec FrProofs FrProperties ExistSpec ExistProperties WrModel WrSpec WrProofs WrProofs7 WrProperties SpecModel SpecSpec SpecProofs SpecProofs2 SpecProofs3 SpecProofs4 SpecProofs5 SpecProofs6 SpecProofs7.
Open Scope R_scope.
Open Scope list_scope.

(** ** Selector names *)
(** A spec with a named selector is accepted exactly when the name is known, in any case, and the option the family needs
    is there; anything else is a ValueError at once. *)
Theorem selector_accepted_iff : forall W eig est name src o k sel kw cols,
  let spec := make_portfolio_spec W eig est name src o k (SelName sel) kw cols in
  ((exists ps, spec = Ok ps) <-> known_selector sel kw) /\ (forall e, spec = Err e -> e = ValueError).
Proof.
  intros W eig est name src o k sel kw cols. cbv zeta. unfold make_portfolio_spec, selector_of. split.
  - rewrite <- build_ok_iff. split.
    + intros (ps & H). apply bind_ok in H as (s & E & _). apply bind_ok in E as (c & E & _). eauto.
    + intros (c & E). rewrite E. cbn [bind]. eauto.
  - intros e H. destruct (build_selector sel kw) as [c|e'] eqn:E; cbn [bind] in H; [discriminate|]. injection H as ->. eapply build_err; eauto.
Qed.
Print Assumptions selector_accepted_iff.

(** The selector of the spec picks the portfolio its name stands for, labelled with the frontier's asset names. *)
Theorem spec_selector_picks : forall W eig est name src o k sel kw cols ps f r,
  sorts Rle 0 (e_sort (wd_env W)) -> FrSpec.well_formed f -> (0 < size f)%nat ->
  make_portfolio_spec W eig est name src o k (SelName sel) kw cols = Ok ps -> ps_selector ps f = Ok r ->
  exists fm i labels, In (lower sel) (aliases fm) /\ (forall fm', In (lower sel) (aliases fm') -> fm' = fm) /\
    picks (e_sort (wd_env W)) kw f i fm /\ (i < size f)%nat /\
    (forall l, f_names f = Some l -> labels = l) /\ r = Plain (OSeries (combine labels (nth i (f_cols f) []))).
Proof.
  intros W eig est name src o k sel kw cols ps f r HS HW Hn H Hr. unfold make_portfolio_spec, selector_of in H.
  apply bind_ok in H as (s & E & H). injection H as <-. apply bind_ok in E as (c & E & E'). injection E' as <-. cbn [ps_selector] in Hr.
  destruct (selector_picks_l _ _ _ _ _ _ _ HS HW Hn E Hr) as (fm & i & A & B & C & D). exists fm, i.
  exists (match f_names f with Some l => l | None => map (wd_rng W) (seq 0 (List.length (nth i (f_cols f) []))) end).
  split; [exact A|]. split; [intros fm' A'; eapply alias_unique; eauto|]. split; [exact B|]. split; [exact C|]. split; [|exact D].
  intros l El. rewrite El. reflexivity.
Qed.
Print Assumptions spec_selector_picks.

Theorem selector_case_insensitive : forall W eig est name src o k sel kw cols,
  make_portfolio_spec W eig est name src o k (SelName (lower sel)) kw cols = make_portfolio_spec W eig est name src o k (SelName sel) kw cols.
Proof. intros. unfold make_portfolio_spec, selector_of. rewrite build_lower. reflexivity. Qed.
Print Assumptions selector_case_insensitive.

(** A misspelt selector option has no effect and is not reported. *)
Theorem unknown_selector_option_ignored : forall W eig est name src o k sel kw cols n v, ~ In n recognised ->
  make_portfolio_spec W eig est name src o k (SelName sel) ((n, v) :: kw) cols = make_portfolio_spec W eig est name src o k (SelName sel) kw cols.
Proof. intros. unfold make_portfolio_spec, selector_of. rewrite build_extra_l by assumption. reflexivity. Qed.
Print Assumptions unknown_selector_option_ignored.
Theorem misspelt_selector_option_rejected_refuted :
  ~ (forall W eig est name src o k sel kw cols n v ps, ~ In n recognised ->
       make_portfolio_spec W eig est name src o k (SelName sel) ((n, v) :: kw) cols <> Ok ps).
Proof.
  intros H.
  refine (H (mkWorld best_env (fun _ _ _ => 0) (fun _ => EmptyString) (fun _ => EmptyString) (fun _ => EmptyString)) (fun _ _ => None) (fun _ _ => Err ValueError)
    "a"%string (mkSrc None PNone None None None None true) (OptName "mv") (plain_options CNone None) "tangency"%string [] None "riskfree_rate"%string (VNum 1) _ _ eq_refl).
  cbn. intuition discriminate.
Qed.
Print Assumptions misspelt_selector_option_rejected_refuted.
Example selector_examples :
  known_selector "Max_Sharpe" [] /\ known_selector "RISK_TARGET" [("max_risk"%string, VNum (1 / 10))] /\
  ~ known_selector "risk_target" [] /\ ~ known_selector "index" [("index"%string, VNone)] /\ ~ known_selector "sharp" [].
Proof.
  split; [|split; [|split; [|split]]].
  - exists FTangency. split; [cbn; auto|]. intros r H. discriminate.
  - exists FRiskTarget. split; [cbn; auto|]. intros r H. injection H as <-. exists (VNum (1 / 10)). split; [reflexivity|]. discriminate.
  - intros H. apply build_ok_iff in H as (c & H). discriminate.
  - intros H. apply build_ok_iff in H as (c & H). discriminate.
  - intros H. apply build_ok_iff in H as (c & H). discriminate.
Qed.
Example selector_example_pick : exists ps r, 
  make_portfolio_spec (mkWorld best_env (fun _ _ _ => 0) (fun _ => EmptyString) (fun _ => EmptyString) (fun _ => EmptyString)) (fun _ _ => None) (fun _ _ => Err ValueError)
    "a" (mkSrc None PNone None None None None true) (OptName "mv") (plain_options CNone None) (SelName "Column") [("index"%string, VInt (-1))] None = Ok ps /\
  FrSpec.well_formed ex_fr /\ (0 < size ex_fr)%nat /\ ps_selector ps ex_fr = Ok r /\ r = Plain (OSeries [("A", 0); ("B", 1)]%string).
Proof. do 2 eexists. split; [reflexivity|]. split; [apply ex_fr_wf|]. split; [apply ex_fr_wf|]. split; reflexivity. Qed.

(** ** Optimiser names *)
Theorem optimiser_names : forall W d s k w, spec_wrapper d (o_cons k) = Ok w ->
  (forall c, In (lower s, c) optimiser_table -> frontier_factory W (Ok d) (OptName s) k = c W w k) /\
  ((forall c, ~ In (lower s, c) optimiser_table) -> frontier_factory W (Ok d) (OptName s) k = Err ValueError).
Proof.
  intros W d s k w Ew. unfold frontier_factory. cbn [bind]. rewrite Ew. cbn [bind]. split.
  - intros c I. assert (L : lookup (lower s) optimiser_table = Some c).
    { unfold optimiser_table in *. cbn [In] in I. repeat (destruct I as [I|I]; [injection I as <- <-; reflexivity|]). destruct I. }
    rewrite (proj2 (optimiser_ok_iff W s (c W))) by eauto. reflexivity.
  - intros H. rewrite optimiser_err; [reflexivity|]. destruct (lookup (lower s) optimiser_table) as [c|] eqn:E; [|reflexivity].
    exfalso. apply (H c). apply lookup_some_in. exact E.
Qed.
Print Assumptions optimiser_names.

(** Building a spec never looks at the optimiser: a bad name is reported when the frontier is computed. *)
Theorem unknown_optimiser_reported_late : forall W eig est name src s k sel kw cols, (forall c, ~ In (lower s, c) optimiser_table) ->
  known_selector sel kw ->
  exists ps, make_portfolio_spec W eig est name src (OptName s) k (SelName sel) kw cols = Ok ps /\ forall f, ps_frontier ps <> Ok f.
Proof.
  intros W eig est name src s k sel kw cols H HS. apply build_ok_iff in HS as (c & E). unfold make_portfolio_spec, selector_of. rewrite E. cbn [bind].
  eexists. split; [reflexivity|]. cbn [ps_frontier]. intros f Hf. unfold frontier_factory in Hf. apply bind_ok in Hf as (d & _ & Hf). apply bind_ok in Hf as (w & _ & Hf).
  apply bind_ok in Hf as (g & Eg & _). apply optimiser_ok_iff in Eg as (c' & L & _). apply (H c'). apply lookup_some_in. exact L.
Qed.
Print Assumptions unknown_optimiser_reported_late.
Theorem unknown_optimiser_rejected_early_refuted :
  ~ (forall W eig est name src s k sel kw cols, (forall c, ~ In (lower s, c) optimiser_table) ->
       exists e, make_portfolio_spec W eig est name src (OptName s) k (SelName sel) kw cols = Err e).
Proof.
  intros H.
  destruct (H (mkWorld best_env (fun _ _ _ => 0) (fun _ => EmptyString) (fun _ => EmptyString) (fun _ => EmptyString)) (fun _ _ => None) (fun _ _ => Err ValueError)
    "a"%string (mkSrc None PNone None None None None true) "mean_cvar"%string (plain_options CNone None) "tangency"%string [] None) as (e & He); [|discriminate].
  intros c I. cbn in I. repeat (destruct I as [I|I]; [discriminate|]). exact I.
Qed.
Print Assumptions unknown_optimiser_rejected_early_refuted.

(** An option the optimiser does not have is a TypeError, whatever else is given. *)
Theorem foreign_option_rejected : forall W d s k w n c, spec_wrapper d (o_cons k) = Ok w -> In (lower s, c) optimiser_table ->
  In n (option_names k) -> ~ In n (known_options (lower s)) -> frontier_factory W (Ok d) (OptName s) k = Err TypeError.
Proof.
  intros W d s k w n c Ew I In_ Nn. rewrite (proj1 (optimiser_names W d s k w Ew) c I).
  unfold optimiser_table in I. cbn [In] in I.
  assert (F : forall {A} (o : option A) (x : string), In n (match o with Some _ => [x] | None => [] end) -> given o = true /\ n = x).
  { intros A [a|] x; cbn; [|intros []]. intros [<-|[]]. auto. }
  unfold option_names in In_. cbv zeta in In_.
  destruct k as [k1 k2 k3 k4 k5 k6 k7 k8 k9 k10 k11 k12 k13 k14]; cbn [o_num o_alpha o_seed o_enforce o_max_lambda o_lambdas o_return_cov o_max_mult o_lam o_mults o_include o_rb o_costs] in *.
  repeat rewrite in_app_iff in In_.
  repeat (destruct I as [I|I]; [injection I as E <-; rewrite <- E in Nn; cbn in Nn;
    unfold call_mv, call_cvar, call_robust, call_rrp, kw_cvar, kw_robust, kw_rrp;
    cbn [o_num o_alpha o_seed o_enforce o_max_lambda o_lambdas o_return_cov o_max_mult o_lam o_mults o_include o_rb o_costs];
    repeat (destruct In_ as [In_|In_]; [apply F in In_ as [G ->]; try (exfalso; apply Nn; tauto); rewrite G, ?orb_true_r; reflexivity|]);
    apply F in In_ as [G ->]; exfalso; apply Nn; tauto|]).
  destruct I.
Qed.
Print Assumptions foreign_option_rejected.

(** ** Where the distribution comes from *)
Theorem source_precedence : forall eig est s,
  (forall d, s_factory s = Some d -> build_distribution eig est s = d) /\
  (forall d, s_factory s = None -> s_dist s = Some d -> build_distribution eig est s = Ok d) /\
  (s_factory s = None -> s_dist s = None -> s_returns s = None -> build_distribution eig est s = Err ValueError) /\
  (forall t e, s_factory s = None -> s_dist s = None -> s_returns s = Some t -> (exists f, s_pre s = Some f /\ f t = Err e) ->
     build_distribution eig est s = Err e).
Proof.
  intros eig est s. unfold build_distribution. split; [|split; [|split]].
  - intros d ->. reflexivity.
  - intros d -> ->. reflexivity.
  - intros -> -> ->. reflexivity.
  - intros t e -> -> -> (f & -> & E). cbn. rewrite E. reflexivity.
Qed.
Print Assumptions source_precedence.

(** With [use_scenarios], the rows become the scenarios and the probabilities follow the row labels. *)
Theorem scenario_source : forall eig est s t, from_returns s -> prepared s t -> table_ok t -> unique_labels (s_probs s) -> s_scen s = true ->
  ((exists d, build_distribution eig est s = Ok d) <-> numeric_table t /\ usable_weights (s_probs s) t) /\
  (forall d, build_distribution eig est s = Ok d ->
     d_N d = List.length (tb_cols t) /\ d_names d = Some (tb_cols t) /\ d_scen d = Some (tb_vals t) /\ d_T d = Some (rows t) /\
     exists pr, d_probs d = Some pr /\ real_array pr [rows t] (row_prob (s_probs s) t)) /\
  (forall e, build_distribution eig est s = Err e -> e = ValueError).
Proof.
  intros eig est s t HF HP HT HU HS. split; [exact (scen_accepts eig est s t HF HP HT HU HS)|]. split.
  - intros d E. apply (scen_values eig est s t HF HP HT HU HS d E).
  - exact (scen_err eig est s t HF HP HT HS).
Qed.
Print Assumptions scenario_source.

(** Without it, the moments are the estimates after the projection, the covariance symmetrised, lifted to a least
    eigenvalue of at least -1e-8 if need be, and given a ridge of 1e-10. *)
Theorem moments_source : forall eig est s t d, correct_eig eig -> from_returns s -> prepared s t -> unique_labels (s_probs s) -> s_scen s = false -> (0 < List.length (tb_cols t))%nat ->
  build_distribution eig est s = Ok d ->
  let n := List.length (tb_cols t) in
  exists q ms ms' k cov, weights_used (s_probs s) t q /\ (q <> None -> ~ labels_clash t) /\ est t q = Ok ms /\ projected s ms = Ok ms' /\
    d_N d = n /\ d_names d = Some (tb_cols t) /\ d_scen d = None /\ d_probs d = None /\
    (exists m, d_mu d = Some m /\ real_array m [n] (fst ms')) /\
    (exists c, d_cov d = Some c /\ nd_shape c = [n; n] /\ forall i j, (i < n)%nat -> (j < n)%nat -> as_mat n c i j = cov i j) /\
    0 <= k /\ (forall i j, cov i j = (snd ms' i j + snd ms' j i) / 2 + (k + 1 / 10000000000) * delta i j) /\
    (psd n (snd ms') -> k = 0 /\ forall x, 1 / 10000000000 * dot n x x <= quad n cov x).
Proof.
  intros eig est s t d HE HF HP HU HS HN H. cbv zeta. set (n := List.length (tb_cols t)) in *.
  apply (moments_iff eig est s t HE HF HP HS d HN) in H as (q & ms & ms' & k & P & Eq & Hc & Em & Ep & EP & Hk & HPk & H).
  exists q, ms, ms', k, (fun i j => P i j + MomModel.eye i j * ridge).
  split.
  { destruct (raw_prob_len _ _ _ HU Eq) as [[_ B]|[A ->]]; [|rewrite A; reflexivity]. destruct q as [q|]; [|rewrite B; reflexivity].
    destruct B as (L & Hne & u & Hu & E). unfold weights_used. destruct (s_probs s); [congruence| |]; exists q, u; auto. }
  split; [intros Hq; destruct Hc as [Hc|Hc]; [contradiction|exact Hc]|]. split; [exact Em|]. split; [exact Ep|].
  destruct (mom_dist t n (tb_cols t) (fst ms') (fun i j => P i j + MomModel.eye i j * ridge) HN eq_refl) as (d' & Ed & D1 & D2 & D3 & D4 & D5 & D6).
  fold n in H. rewrite H in Ed. injection Ed as <-. split; [exact D1|]. split; [exact D2|]. split; [exact D3|]. split; [exact D4|].
  split. { exists (flat (nd_vec n (fst ms'))). split; [exact D5|]. split; [unfold flat, nd_size; cbn; f_equal; lia|reflexivity]. }
  split. { eexists. split; [exact D6|]. split; [reflexivity|]. intros i j _ Hj. apply as_mat_nd. exact Hj. }
  split; [exact Hk|]. split.
  { intros i j. rewrite HPk. unfold MomModel.symmetrise, ridge, MomModel.eye, delta. destruct (Nat.eqb i j); field. }
  intros Hpsd. destruct (ensure_psd_id eig n (snd ms') HE HN Hpsd) as (P' & EP' & HP'). fold n in EP. rewrite EP in EP'. injection EP' as <-.
  split.
  { specialize (HPk 0%nat 0%nat). rewrite HP' in HPk. unfold MomModel.eye, delta in HPk. cbn in HPk. lra. }
  intros x. assert (E : quad n (fun i j => P i j + MomModel.eye i j * ridge) x = quad n (snd ms') x + ridge * dot n x x).
  { rewrite <- (quad_symmetrise n (snd ms') x). unfold quad, dot. rewrite <- sumn_scale, <- sumn_plus. apply sumn_ext. intros i Hi.
    rewrite (sumn_ext n _ (fun j => MomModel.symmetrise (snd ms') i j * x i * x j + x i * ridge * (delta i j * x j))) by (intros j _; rewrite HP'; unfold MomModel.eye; ring).
    rewrite sumn_plus, sumn_scale, sumn_delta_r by exact Hi. ring. }
  rewrite E. specialize (Hpsd x). unfold ridge. lra.
Qed.
Print Assumptions moments_source.

(** The order in which a labelled Series lists the probabilities does not matter. *)
Theorem row_probabilities_by_label : forall eig est s l l', NoDup (map fst l) -> Permutation l l' -> s_probs s = PSeries l ->
  build_distribution eig est (mkSrc (s_returns s) (PSeries l') (s_pre s) (s_proj s) (s_dist s) (s_factory s) (s_scen s)) = build_distribution eig est s.
Proof.
  intros eig est s l l' ND Pm Es. unfold build_distribution. cbn [s_returns s_probs s_pre s_proj s_dist s_factory s_scen]. rewrite Es.
  destruct (s_factory s) as [d|]; [reflexivity|]. destruct (s_dist s) as [d|]; [reflexivity|]. destruct (s_returns s) as [t|]; [|reflexivity].
  destruct (match s_pre s with Some f => f t | None => Ok t end) as [t'|e]; [|reflexivity]. cbn [bind]. rewrite (table_probs_perm l l' t' ND Pm). reflexivity.
Qed.
Print Assumptions row_probabilities_by_label.

(** With as many rows as assets and probabilities, the moments path only accepts row labels equal to the asset labels. *)
Theorem square_table_rejected : forall eig est s t, from_returns s -> prepared s t -> s_scen s = false -> s_probs s <> PNone -> labels_clash t ->
  build_distribution eig est s = Err ValueError.
Proof.
  intros eig est s t HF HP HS Hp HC. rewrite (build_returns eig est s t HF HP), HS. destruct (table_probs (s_probs s) t) as [q|e] eqn:Eq; cbn [bind].
  - assert (q <> None).
    { intros ->. unfold table_probs in Eq. destruct (s_probs s); [congruence| |]; apply bind_ok in Eq as (? & _ & Eq); [apply bind_ok in Eq as (? & _ & Eq)|]; discriminate. }
    unfold moments_dist. destruct (label_clash t q) as [[]|e] eqn:E.
    + apply label_clash_iff in E as [E|E]; [contradiction|contradiction].
    + cbn [bind]. apply label_clash_err in E. congruence.
  - apply table_probs_err in Eq. congruence.
Qed.
Print Assumptions square_table_rejected.

Definition demo_table : table := mkTab ["mon"; "tue"]%string ["A"; "B"]%string (nd_mat 2 (fun i j => INR (i + j) / 10)).
Definition demo_src (p : probs_arg) (scen : bool) (pj : option proj_opts) : data_src := mkSrc (Some demo_table) p None pj None None scen.
Definition demo_est : table -> option (list R) -> res (vec * mat) := fun _ _ => Ok (fun _ => 1 / 20, fun i j => delta i j / 100).
Lemma demo_facts p b pj : from_returns (demo_src p b pj) /\ prepared (demo_src p b pj) demo_table /\ table_ok demo_table.
Proof. split; [split; reflexivity|]. split; [|reflexivity]. exists demo_table. split; reflexivity. Qed.
Example square_table_example : labels_clash demo_table /\
  exists d, forall eig est, build_distribution eig est (demo_src (PSeries [("tue", Fin 3); ("mon", Fin 1)]%string) true None) = Ok d.
Proof.
  split; [split; [reflexivity|discriminate]|].
  set (s := demo_src (PSeries [("tue", Fin 3); ("mon", Fin 1)]%string) true None).
  destruct (demo_facts (PSeries [("tue", Fin 3); ("mon", Fin 1)]%string) true None) as (A & B & C).
  assert (HU : unique_labels (s_probs s)). { intros l E. injection E as <-. repeat constructor; cbn; intuition discriminate. }
  destruct (proj2 (scen_accepts (fun _ _ => None) (fun _ _ => Err ValueError) s demo_table A B C HU eq_refl)) as (d & Ed).
  - split.
    + split; [unfold rows; cbn; lia|]. split; [cbn; lia|]. apply real_mat.
    + split.
      * intros k Hk. unfold rows in Hk. cbn in Hk. destruct k as [|[|k]]; [exists 1|exists 3|lia]; cbn; split; try reflexivity; lra.
      * unfold rows. cbn. lra.
  - exists d. intros eig est. rewrite <- Ed. reflexivity.
Qed.
Theorem usable_probabilities_accepted_refuted :
  ~ (forall eig est s t, correct_eig eig -> from_returns s -> prepared s t -> table_ok t -> unique_labels (s_probs s) -> numeric_table t -> usable_weights (s_probs s) t ->
       (forall q, exists ms, est t q = Ok ms) -> s_proj s = None -> exists d, build_distribution eig est s = Ok d).
Proof.
  intros H. set (s := demo_src (PSeq [Fin 1; Fin 3]) false None). destruct (demo_facts (PSeq [Fin 1; Fin 3]) false None) as (A & B & C).
  destruct (H rayleigh demo_est s demo_table rayleigh_correct A B C) as (d & Ed).
  - intros l E. discriminate.
  - split; [unfold rows; cbn; lia|]. split; [cbn; lia|]. apply real_mat.
  - split; [split; [reflexivity|]; intros x [<-|[<-|[]]]; eexists; (split; [reflexivity|lra])|unfold rows; cbn; lra].
  - intros q. eexists. reflexivity.
  - reflexivity.
  - rewrite (square_table_rejected rayleigh demo_est s demo_table A B) in Ed; [discriminate|reflexivity|discriminate|]. split; [reflexivity|discriminate].
Qed.
Print Assumptions usable_probabilities_accepted_refuted.

(** ** Projection *)
(** Scaling to the horizon comes first, the log-to-simple conversion second, the caller's transform last. *)
Theorem projection_steps : forall o ms,
  let h := match pj_annual o with Some h => h | None => 1 end in
  let mu i := h * fst ms i in let S i j := h * snd ms i j in
  let simple := pj_log o = Some true \/ pj_simple o = Some true in
  exists mid, (simple -> forall i j, fst mid i = exp (mu i + S i i / 2) - 1 /\
                 snd mid i j = exp (mu i + mu j + (S i i + S j j) / 2) * (exp (S i j) - 1)) /\
    (~ simple -> forall i j, fst mid i = mu i /\ snd mid i j = S i j) /\
    let unusable := pj_other o = true \/ (pj_log o = Some true /\ pj_simple o <> None) in
    let result := match pj_transform o with Some f => f mid | None => Ok mid end in
    (forall e, result = Err e -> apply_projection o ms = Err e) /\
    (forall r, result = Ok r -> unusable -> apply_projection o ms = Err ValueError) /\
    (forall r, result = Ok r -> ~ unusable -> apply_projection o ms = Ok r).
Proof.
  intros o ms. cbv zeta.
  set (ms1 := match pj_annual o with Some h => project_mean_covariance (fst ms) (snd ms) h | None => ms end).
  set (h := match pj_annual o with Some h => h | None => 1 end).
  assert (E1 : forall i j, fst ms1 i = h * fst ms i /\ snd ms1 i j = h * snd ms i j).
  { intros i j. unfold ms1, h, project_mean_covariance. destruct (pj_annual o); cbn [fst snd]; split; first [ring|symmetry; apply Rmult_1_l]. }
  exists (if truthy (pj_log o) || truthy (pj_simple o) then log2simple (fst ms1) (snd ms1) else ms1).
  assert (ES : truthy (pj_log o) || truthy (pj_simple o) = true <-> (pj_log o = Some true \/ pj_simple o = Some true)).
  { destruct (pj_log o) as [[]|]; destruct (pj_simple o) as [[]|]; cbn; split; auto; try discriminate; intros [H|H]; discriminate. }
  split; [|split].
  - intros Hs i j. apply ES in Hs. rewrite Hs. unfold log2simple. cbn [fst snd]. rewrite !(proj1 (E1 _ 0%nat)), !(proj2 (E1 _ _)). split; [f_equal; f_equal; field|].
    rewrite <- exp_plus, Rmult_minus_distr_l, <- exp_plus, Rmult_1_r. f_equal; f_equal; field.
  - intros Hs i j. destruct (truthy (pj_log o) || truthy (pj_simple o)) eqn:E; [exfalso; apply Hs, ES, eq_refl|]. apply E1.
  - unfold apply_projection. cbv zeta. fold ms1. set (mid := if truthy (pj_log o) || truthy (pj_simple o) then _ else _).
    assert (EU : pj_other o || (truthy (pj_log o) && given (pj_simple o)) = true <-> (pj_other o = true \/ (pj_log o = Some true /\ pj_simple o <> None))).
    { destruct (pj_other o); destruct (pj_log o) as [[]|]; destruct (pj_simple o) as [[]|]; cbn; split; auto; try discriminate; try (intros _; right; split; [reflexivity|discriminate]); intros [H|[H H']]; try discriminate; congruence. }
    clearbody mid. set (u := pj_other o || (truthy (pj_log o) && given (pj_simple o))) in *. clearbody u.
    assert (G : forall q : res (vec * mat), (forall e, q = Err e -> (let* ms := q in if u then Err ValueError else Ok ms) = Err e) /\
      (forall r, q = Ok r -> (pj_other o = true \/ (pj_log o = Some true /\ pj_simple o <> None)) -> (let* ms := q in if u then Err ValueError else Ok ms) = Err ValueError) /\
      (forall r, q = Ok r -> ~ (pj_other o = true \/ (pj_log o = Some true /\ pj_simple o <> None)) -> (let* ms := q in if u then Err ValueError else Ok ms) = Ok r)).
    { intros q. split; [intros e ->; reflexivity|]. split; intros r -> Hu; cbn [bind].
      - rewrite (proj2 EU Hu). reflexivity.
      - destruct u; [exfalso; apply Hu, EU; reflexivity|reflexivity]. }
    apply G.
Qed.
Print Assumptions projection_steps.
(** Asking for the conversion under both of its names raises. *)
Theorem projection_synonyms_refuted :
  ~ (forall ms h, apply_projection (mkProj h (Some true) (Some true) None false) ms = apply_projection (mkProj h (Some true) None None false) ms).
Proof. intros H. specialize (H (fun _ => 0, fun _ _ => 0) None). discriminate. Qed.
Print Assumptions projection_synonyms_refuted.
(** A transform that returns a slightly indefinite covariance leaves it indefinite. *)
Theorem covariance_definite_refuted :
  ~ (forall eig est s t d, correct_eig eig -> from_returns s -> prepared s t -> s_scen s = false -> build_distribution eig est s = Ok d ->
       exists c, d_cov d = Some c /\ psd (d_N d) (as_mat (d_N d) c)).
Proof.
  intros H. set (e := 5 / 1000000000).
  set (pj := mkProj None None None (Some (fun _ => Ok (fun _ => 0, fun i j => - e * delta i j))) false).
  destruct (demo_facts PNone false (Some pj)) as (A & B & _). set (s := demo_src PNone false (Some pj)) in *.
  destruct (ensure_psd_ok rayleigh 2 (fun i j => - e * delta i j) jit rayleigh_correct ltac:(lia) ltac:(unfold jit; lra)) as (P & k & EP & _ & HP & _ & _ & Hk & _).
  assert (Ek : k = 0).
  { apply Hk. intros x. rewrite quad_symmetrise. unfold quad, dot, jit, e. cbn. unfold delta; cbn. nra. }
  destruct (mom_dist demo_table 2 ["A"; "B"]%string (fun _ => 0) (fun i j => P i j + MomModel.eye i j * ridge) ltac:(lia) eq_refl) as (d & Ed & EN & _ & _ & _ & _ & Ec).
  destruct (H rayleigh demo_est s demo_table d rayleigh_correct A B eq_refl) as (c & Ec' & Hp).
  { rewrite (build_returns rayleigh demo_est s demo_table A B). unfold s. cbn [demo_src s_probs s_scen table_probs bind s_proj]. unfold moments_dist.
    unfold label_clash. cbn [bind demo_est apply_projection pj pj_annual pj_log pj_simple truthy orb pj_transform pj_other andb given snd fst tb_cols demo_table List.length].
    rewrite EP. cbn [bind]. exact Ed. }
  rewrite Ec in Ec'. injection Ec' as <-. rewrite EN in Hp. specialize (Hp (fun _ => 1)). revert Hp. unfold quad. cbn [sumn]. rewrite !as_mat_nd by lia.
  rewrite !HP, Ek. unfold MomModel.symmetrise, MomModel.eye, delta, ridge, e. cbn. lra.
Qed.
Print Assumptions covariance_definite_refuted.
Theorem moments_source_accepts : forall eig est s t, correct_eig eig -> from_returns s -> prepared s t -> unique_labels (s_probs s) -> s_scen s = false ->
  (0 < List.length (tb_cols t))%nat -> usable_weights (s_probs s) t -> (s_probs s = PNone \/ ~ labels_clash t) ->
  (forall q, weights_used (s_probs s) t q -> exists ms ms', est t q = Ok ms /\ projected s ms = Ok ms') ->
  exists d, build_distribution eig est s = Ok d.
Proof.
  intros eig est s t HE HF HP HU HS HN UW Hc He. destruct (table_probs_total _ _ HU UW) as (q & Eq).
  assert (WU : weights_used (s_probs s) t q).
  { destruct (raw_prob_len _ _ _ HU Eq) as [[_ B]|[A ->]]; [|rewrite A; reflexivity]. destruct q as [q|]; [|rewrite B; reflexivity].
    destruct B as (L & Hne & u & Hu & E). unfold weights_used. destruct (s_probs s); [congruence| |]; exists q, u; auto. }
  destruct (He q WU) as (ms & ms' & E1 & E2).
  destruct (ensure_psd_ok eig _ (snd ms') jit HE HN) as (P & k & EP & Hk & HPk & _); [unfold jit; lra|].
  destruct (mom_dist t _ (tb_cols t) (fst ms') (fun i j => P i j + MomModel.eye i j * ridge) HN eq_refl) as (d & Ed & _).
  exists d. apply (moments_iff eig est s t HE HF HP HS d HN). exists q, ms, ms', k, P. split; [exact Eq|]. split.
  { destruct Hc as [Hc|Hc]; [|right; exact Hc]. left. rewrite Hc in WU. exact WU. }
  split; [exact E1|]. split; [exact E2|]. split; [exact EP|]. split; [exact Hk|]. split; [exact HPk|]. exact Ed.
Qed.
Print Assumptions moments_source_accepts.
Example moments_source_example : exists d, build_distribution rayleigh demo_est (demo_src PNone false (Some (mkProj (Some 12) (Some true) None None false))) = Ok d.
Proof.
  destruct (demo_facts PNone false (Some (mkProj (Some 12) (Some true) None None false))) as (A & B & _).
  apply (moments_source_accepts rayleigh demo_est _ demo_table rayleigh_correct A B); [intros l E; discriminate|reflexivity|cbn; lia| |left; reflexivity|].
  - split; [exact I|]. unfold rows. cbn. lra.
  - intros q _. do 2 eexists. split; reflexivity.
Qed.

(** ** Specs and ensembles respect the constraints *)
Theorem spec_respects_constraints : forall W eig est name src s k sel kw cols ps names, exact_env (wd_env W) ->
  (forall d, build_distribution eig est src = Ok d -> built d /\ d_names d = Some names) ->
  make_portfolio_spec W eig est name src (OptName s) k (SelName sel) kw cols = Ok ps -> sound_spec (spec_constraints (o_cons k)) names ps.
Proof. exact spec_sound. Qed.
Print Assumptions spec_respects_constraints.

(** Distributions built from returns satisfy the hypothesis on distributions. *)
Theorem distribution_from_returns_built : forall eig est s t d, from_returns s -> prepared s t -> table_ok t -> build_distribution eig est s = Ok d ->
  (0 < List.length (tb_cols t))%nat -> built d /\ d_names d = Some (tb_cols t).
Proof.
  intros eig est s t d HF HP HT H HN. rewrite (build_returns eig est s t HF HP) in H. apply bind_ok in H as (q & _ & H). destruct (s_scen s).
  - split; [eexists; exact H|]. apply (distribution_names _ d (tb_cols t)) in H; [exact H| |cbn; left; reflexivity]. repeat split; cbn; auto. exists (rows t). exact HT.
  - unfold moments_dist in H. apply bind_ok in H as (u & _ & H). apply bind_ok in H as (ms & _ & H). apply bind_ok in H as (ms' & _ & H). apply bind_ok in H as (P & _ & H).
    destruct (mom_dist t (List.length (tb_cols t)) (tb_cols t) (fst ms') (fun i j => P i j + MomModel.eye i j * ridge) HN eq_refl) as (d' & Ed & _ & Dn & _).
    rewrite H in Ed. injection Ed as <-. split; [eexists; exact H|exact Dn].
Qed.
Print Assumptions distribution_from_returns_built.

(** A spec made from a wrapper depends on the wrapper's distribution only. *)
Theorem wrapper_spec_ignores_settings : forall W eig est w w' name o k sel kw cols, w_dist w = w_dist w' ->
  make_ensemble_spec W eig est w name o k sel kw cols = make_ensemble_spec W eig est w' name o k sel kw cols.
Proof. intros W eig est w w' name o k sel kw cols E. unfold make_ensemble_spec. rewrite E. reflexivity. Qed.
Print Assumptions wrapper_spec_ignores_settings.
Theorem wrapper_spec_sound : forall W eig est w c0 name s k sel kw cols ps names, exact_env (wd_env W) -> constructed w c0 -> d_names (w_dist w) = Some names ->
  make_ensemble_spec W eig est w name (OptName s) k (SelName sel) kw cols = Ok ps -> sound_spec (spec_constraints (o_cons k)) names ps.
Proof.
  intros W eig est w c0 name s k sel kw cols ps names HE HC Hn H. eapply spec_sound; [exact HE| |exact H]. cbn. intros d E. injection E as <-. split; [|exact Hn].
  destruct HC as [i d arg k' lo tot bds w Ei Ew|eig' nm n mu sigma s_mu h arg k' lo tot bds w H'].
  - destruct (make_wrapper_good d arg k' lo tot bds w (make_dist_valid i d Ei) Ew) as (_ & -> & _). exists i. exact Ei.
  - unfold from_robust_posterior in H'. apply bind_ok in H' as (w1 & H' & E). injection E as <-. cbn [w_dist]. 
    apply from_moments_inv in H' as (i & d & Ei & Ew).
    destruct (make_wrapper_good d arg k' lo tot bds w1 (make_dist_valid _ d Ei) Ew) as (_ & -> & _). exists i. exact Ei.
Qed.
Print Assumptions wrapper_spec_sound.

Definition demo_world : world := mkWorld best_env (fun _ _ _ => 0) (fun _ => "CVaR"%string) (fun _ => "raw"%string) (fun _ => "0"%string).
(** The wrapper's own constraints are lost: a fund that invests twice its capital gets a fully invested ensemble. *)
Theorem wrapper_spec_keeps_constraints_refuted :
  ~ (forall W eig est w c name ps f col, exact_env (wd_env W) -> constructed w c ->
       make_ensemble_spec W eig est w name (OptName "mean_variance") (plain_options CNone None) (SelName "min_risk") [] None = Ok ps ->
       ps_frontier ps = Ok f -> In col (f_cols f) -> satisfies c (assets w) col).
Proof.
  intros H. destruct (build_moments 1 (fun _ => 1 / 10) (fun i j => delta i j) CNone None true (Some (Num (Fin 2))) None) as (w & cov & HC & HN & _ & _ & _ & _ & (m & cv & Em & Ec & _) & _); [lia|intros k E; discriminate| |].
  { unfold ConsSpec.well_formed, asked; cbn. split; [lia|]. split; [intros x E; injection E as <-; exists 2; reflexivity|].
    split; [exact I|]. split; [|split; [|split]]; intros ? []. }
  assert (HB : built (w_dist w)).
  { destruct (constructed_good w _ HC). destruct HC as [i d arg k lo tot bds w Ei Ew|eig' nm n mu sigma s_mu h arg k lo tot bds w H'].
    - destruct (make_wrapper_good d arg k lo tot bds w (make_dist_valid i d Ei) Ew) as (_ & -> & _). exists i. exact Ei.
    - unfold from_robust_posterior in H'. apply bind_ok in H' as (w1 & H' & E). injection E as <-. cbn [w_dist] in *. apply from_moments_inv in H' as (i & d & Ei & Ew).
      destruct (make_wrapper_good d arg k lo tot bds w1 (make_dist_valid _ d Ei) Ew) as (_ & -> & _). exists i. exact Ei. }
  assert (HM1 : d_mu (w_dist w) <> None) by (rewrite Em; discriminate). assert (HM2 : d_cov (w_dist w) <> None) by (rewrite Ec; discriminate).
  destruct (default_frontier demo_world (w_dist w) "mean_variance" best_env_exact best_qp_complete best_cp_complete HB HM1 HM2) as (f & Ef & Hs); [cbn; auto|].
  destruct (factory_allowed demo_world (Ok (w_dist w)) "mean_variance" (plain_options CNone None) f best_env_exact) as (d & Ed & WF & En & _ & HA); [intros d E; injection E as <-; exact HB|exact Ef|].
  injection Ed as <-. destruct WF as (Wl & _). assert (HI : In (nth 0 (f_cols f) []) (f_cols f)) by (apply nth_In; rewrite Wl; exact Hs).
  destruct (HA _ HI) as [_ HS]. assert (Ed : d_N (w_dist w) = assets w) by reflexivity.
  specialize (H demo_world (fun _ _ => None) (fun _ _ => Err ValueError) w _ "a"%string _ f _ best_env_exact HC eq_refl Ef HI).
  rewrite Ed in HS. destruct HS as (_ & _ & _ & _ & _ & HS & _). destruct H as (_ & _ & _ & _ & _ & H & _).
  cbn in HS, H. unfold total_hold in HS, H. cbn in HS, H. lra.
Qed.
Print Assumptions wrapper_spec_keeps_constraints_refuted.

(** Every frontier, selection and blend of an ensemble of specs that were given the same constraints satisfies them. *)
Theorem ensemble_respects_constraints : forall W eig est solver arg names specs a comb folds w r, exact_env (wd_env W) ->
  NoDup names -> names <> [] -> (forall q x, solver q = Some x -> qp_feasible q x) -> nonneg_weights w ->
  (forall s, In s specs -> exists name src o k sel kw cols, o_cons k = arg /\
     (forall d, build_distribution eig est src = Ok d -> built d /\ d_names d = Some names) /\
     make_portfolio_spec W eig est name src (OptName o) k (SelName sel) kw cols = Ok s) ->
  assemble_portfolio_ensemble solver (wd_rng W) specs a comb folds w = Ok r ->
  (forall k f, In (k, f) (er_frontiers r) -> frontier_allowed (spec_constraints arg) (Some names) (List.length names) f) /\
  (forall k l, In (k, l) (er_selections r) -> labelled_allowed (spec_constraints arg) names l) /\
  (forall k b, In (k, b) (er_ensembles r) -> blend_allowed (spec_constraints arg) names b).
Proof.
  intros W eig est solver arg names specs a comb folds w r HE ND Hne HS Hw Hsp H. apply (ensemble_allowed _ names solver (wd_rng W) specs a comb folds w r ND Hne HS Hw); [|exact H].
  apply Forall_forall. intros s I. destruct (Hsp s I) as (name & src & o & k & sel & kw & cols & <- & Hd & Hm). eapply spec_sound; eauto.
Qed.
Print Assumptions ensemble_respects_constraints.

(** Long-only minimum-risk specs on distributions with moments always give an average, if the solvers find an optimum
    whenever there is one. *)
Theorem default_ensemble_answers : forall W eig est solver specs folds, exact_env (wd_env W) -> complete_qp (e_qp (wd_env W)) -> complete_cp (e_lp (wd_env W)) ->
  specs <> [] ->
  (forall s, In s specs -> exists name src d o sel cols, build_distribution eig est src = Ok d /\ built d /\ d_mu d <> None /\ d_cov d <> None /\
     In (lower o) ["mean_variance"; "mv"]%string /\ In (lower sel) (aliases FMinRisk) /\
     make_portfolio_spec W eig est name src (OptName o) (plain_options CNone None) (SelName sel) [] cols = Ok s) ->
  exists r, assemble_portfolio_ensemble solver (wd_rng W) specs (EStr "average") "selected" folds WNone = Ok r.
Proof.
  intros W eig est solver specs folds HE Hq Hl Hne Hsp. apply average_total; [exact Hne|]. apply Forall_forall. intros s I.
  destruct (Hsp s I) as (name & src & d & o & sel & cols & Ed & HB & Hm & Hc & Ho & Hsel & E). eapply default_answering; eauto.
Qed.
Print Assumptions default_ensemble_answers.
Example ensemble_example : exists specs r,
  List.length specs = 2%nat /\
  (forall s, In s specs -> exists name src o k sel kw cols, o_cons k = CNone /\
     (forall d, build_distribution rayleigh demo_est src = Ok d -> built d /\ d_names d = Some ["A"; "B"]%string) /\
     make_portfolio_spec demo_world rayleigh demo_est name src (OptName o) k (SelName sel) kw cols = Ok s) /\
  assemble_portfolio_ensemble best_qp (wd_rng demo_world) specs (EStr "average") "selected" None WNone = Ok r /\ er_average r <> None.
Proof.
  set (s1 := demo_src PNone false None). set (s2 := demo_src PNone false (Some (mkProj (Some 12) None None None false))).
  destruct (demo_facts PNone false None) as (A & B & C). destruct (demo_facts PNone false (Some (mkProj (Some 12) None None None false))) as (A' & B' & _).
  assert (U : usable_weights PNone demo_table) by (split; [exact I|unfold rows; cbn; lra]).
  destruct (moments_source_accepts rayleigh demo_est s1 demo_table rayleigh_correct A B) as (d1 & E1); [intros l E; discriminate|reflexivity|cbn; lia|exact U|left; reflexivity|intros q _; do 2 eexists; split; reflexivity|].
  destruct (moments_source_accepts rayleigh demo_est s2 demo_table rayleigh_correct A' B') as (d2 & E2); [intros l E; discriminate|reflexivity|cbn; lia|exact U|left; reflexivity|intros q _; do 2 eexists; split; reflexivity|].
  set (p1 := mkPS "mv" (frontier_factory demo_world (build_distribution rayleigh demo_est s1) (OptName "mv") (plain_options CNone None))
    (run_closure (e_sort (wd_env demo_world)) (wd_rng demo_world) (Chosen (SelMinRisk None))) None).
  set (p2 := mkPS "annual" (frontier_factory demo_world (build_distribution rayleigh demo_est s2) (OptName "mv") (plain_options CNone None))
    (run_closure (e_sort (wd_env demo_world)) (wd_rng demo_world) (Chosen (SelMinRisk None))) None).
  assert (HD : forall s d, s = s1 \/ s = s2 -> build_distribution rayleigh demo_est s = Ok d ->
    built d /\ d_names d = Some ["A"; "B"]%string /\ d_mu d <> None /\ d_cov d <> None).
  { intros s d Hs E. assert (Ha : from_returns s /\ prepared s demo_table /\ unique_labels (s_probs s) /\ s_scen s = false).
    { destruct Hs as [Hs|Hs]; subst s; (split; [split; reflexivity|]; split; [assumption|]; split; [intros l El; discriminate|reflexivity]). }
    destruct Ha as (H1 & H2 & H3 & H4). destruct (distribution_from_returns_built rayleigh demo_est s demo_table d H1 H2 C E) as [HB HN]; [cbn; lia|].
    split; [exact HB|]. split; [exact HN|].
    destruct (moments_source rayleigh demo_est s demo_table d rayleigh_correct H1 H2 H3 H4 ltac:(cbn; lia) E) as (q & ms & ms' & k & cov & _ & _ & _ & _ & _ & _ & _ & _ & (m & Em & _) & (cc & Ec & _) & _).
    rewrite Em, Ec. split; discriminate. }
  destruct (default_ensemble_answers demo_world rayleigh demo_est best_qp [p1; p2] None best_env_exact best_qp_complete best_cp_complete) as (r & Er); [discriminate| |].
  { intros s [<-|[<-|[]]].
    - destruct (HD s1 d1 (or_introl eq_refl) E1) as (HB & _ & Hm & Hc). exists "mv"%string, s1, d1, "mv"%string, "min_risk"%string, None. repeat (split; [assumption|]). split; [cbn; auto|]. split; [cbn; auto|]. reflexivity.
    - destruct (HD s2 d2 (or_intror eq_refl) E2) as (HB & _ & Hm & Hc). exists "annual"%string, s2, d2, "mv"%string, "min_risk"%string, None. repeat (split; [assumption|]). split; [cbn; auto|]. split; [cbn; auto|]. reflexivity. }
  exists [p1; p2], r. split; [reflexivity|]. split; [|split; [exact Er|]].
  - intros s [<-|[<-|[]]].
    + exists "mv"%string, s1, "mv"%string, (plain_options CNone None), "min_risk"%string, [], None. split; [reflexivity|]. split; [|reflexivity].
      intros d E. destruct (HD s1 d (or_introl eq_refl) E) as (X & Y & _). auto.
    + exists "annual"%string, s2, "mv"%string, (plain_options CNone None), "min_risk"%string, [], None. split; [reflexivity|]. split; [|reflexivity].
      intros d E. destruct (HD s2 d (or_intror eq_refl) E) as (X & Y & _). auto.
  - destruct (ensemble_request _ _ _ _ _ _ _ _ Er) as (_ & _ & _ & K & _). specialize (K "average"%string). unfold er_average. intros N.
    assert (I : In "average"%string (map fst (er_ensembles r))) by (apply K; left; reflexivity).
    apply in_map_iff in I as ([k v] & Ek & I). cbn in Ek. subst k. exact (lookup_none_in _ _ N v I).
Qed.

(** ** Which ensembles are computed *)
(** Nothing, "none" and white space ask for no ensemble; every other name must be "average" or "stack", in any case and
    with any surrounding white space. *)
Theorem ensemble_argument : forall solver rng specs a comb folds w,
  (ensemble_names a = [] <-> a = ENone \/ (exists s, a = EStr s /\ (understood s = ""%string \/ understood s = "none"%string)) \/
     (exists l, a = ESeq l /\ forall s, In s l -> strip s = ""%string)) /\
  (forall s, a = EStr s -> understood s <> ""%string -> understood s <> "none"%string -> ensemble_names a = [understood s]) /\
  (forall l n, a = ESeq l -> (In n (ensemble_names a) <-> exists s, In s l /\ strip s <> ""%string /\ n = understood s)) /\
  (forall r, assemble_portfolio_ensemble solver rng specs a comb folds w = Ok r ->
     specs <> [] /\ (lower comb = "selected"%string \/ lower comb = "frontier"%string) /\
     (forall n, In n (ensemble_names a) -> n = "average"%string \/ n = "stack"%string) /\
     (forall n, In n (map fst (er_ensembles r)) <-> In n (ensemble_names a)) /\
     map fst (er_selections r) = map ps_name specs /\
     (forall n, In n (map fst (er_frontiers r)) <-> In n (map ps_name specs))) /\
  (forall s, assemble_portfolio_ensemble solver rng specs (EStr (understood s)) (lower comb) folds w =
             assemble_portfolio_ensemble solver rng specs (EStr s) comb folds w).
Proof.
  intros solver rng specs a comb folds w. split; [apply names_nil|]. split; [|split; [|split]].
  - intros s -> H1 H2. cbn [ensemble_names]. fold (understood s). rewrite (proj2 (one_of_not (understood s) [""; "none"]%string)); [reflexivity|].
    intros [H|[H|[]]]; congruence.
  - intros l n ->. cbn [ensemble_names]. rewrite in_map_iff. split.
    + intros (s & <- & I). apply filter_In in I as [I F]. exists s. split; [exact I|]. split; [|reflexivity].
      apply andb_true_iff in F as [_ F]. intros E. rewrite E in F. discriminate.
    + intros (s & I & Hs & ->). exists s. split; [reflexivity|]. apply filter_In. split; [exact I|].
      destruct (String.eqb_spec s "") as [->|_]; [exfalso; apply Hs; reflexivity|]. destruct (String.eqb_spec (strip s) ""); [contradiction|reflexivity].
  - intros r H. exact (ensemble_request _ _ _ _ _ _ _ _ H).
  - intros s. unfold assemble_portfolio_ensemble. unfold mode_of. rewrite lower_idem. cbn [ensemble_names]. unfold understood. rewrite norm_idem. reflexivity.
Qed.
Print Assumptions ensemble_argument.
(** "none" in a list is an unknown ensemble. *)
Theorem none_in_a_list_refuted :
  ~ (forall solver rng specs comb folds w r, assemble_portfolio_ensemble solver rng specs (EStr "none") comb folds w = Ok r ->
       assemble_portfolio_ensemble solver rng specs (ESeq ["none"%string]) comb folds w = Ok r).
Proof.
  intros H. set (s := mkPS "a" (Ok ex_fr) (fun _ => Ok (Plain (OArr [1; 0]))) None).
  specialize (H best_qp (fun _ => EmptyString) [s] "selected"%string None WNone _ eq_refl). discriminate H.
Qed.
Print Assumptions none_in_a_list_refuted.
(** The accessors of a result. *)
Theorem ensemble_accessors : forall r name default,
  (forall b, er_get r name default = Some b -> In (name, b) (er_ensembles r) \/ ((forall b', ~ In (name, b') (er_ensembles r)) /\ default = Some b)) /\
  (er_get r name default = None <-> (forall b', ~ In (name, b') (er_ensembles r)) /\ default = None) /\
  er_average r = er_get r "average" None /\ er_stacked r = er_get r "stack" None.
Proof.
  intros r name default. unfold er_get, er_average, er_stacked. split; [|split; [|split]].
  - intros b. destruct (lookup name (er_ensembles r)) as [b'|] eqn:E.
    + intros H. injection H as ->. left. apply lookup_some_in. exact E.
    + intros ->. right. split; [|reflexivity]. intros b' I. exact (lookup_none_in _ _ E b' I).
  - destruct (lookup name (er_ensembles r)) as [b'|] eqn:E; split.
    + discriminate.
    + intros [H _]. exfalso. apply (H b'). apply lookup_some_in. exact E.
    + intros ->. split; [|reflexivity]. intros b' I. exact (lookup_none_in _ _ E b' I).
    + intros [_ ->]. reflexivity.
  - destruct (lookup "average" (er_ensembles r)); reflexivity.
  - destruct (lookup "stack" (er_ensembles r)); reflexivity.
Qed.
Print Assumptions ensemble_accessors.

(** ** Helpers *)
Theorem stack_portfolios_respects_constraints : forall solver entries sel L v labs c n, (forall q x, solver q = Some x -> qp_feasible q x) ->
  Forall well_shaped entries ->
  (forall e, In e entries -> entry_dim e = n /\ forall x, In x (entry_columns e) -> satisfies c n (to_list n x)) ->
  stack_portfolios solver entries sel L = Ok (v, labs) -> allowed c n v.
Proof. exact stack_portfolios_l. Qed.
Print Assumptions stack_portfolios_respects_constraints.

(** One column per frontier, the one nearest the percentile; all or nothing. *)
Theorem percentile_selections : forall argsort fs p label out, risk_percentile_selections argsort fs p label = Ok out ->
  Forall2 (fun f l => exists i, l = [Z.of_nat i] /\ index_at_risk_percentile argsort f p label = Ok i) fs out.
Proof.
  intros argsort fs p label. unfold risk_percentile_selections. induction fs as [|f fs IH]; cbn [mapM]; intros out H; [injection H as <-; constructor|].
  apply bind_ok in H as (l & E & H). apply bind_ok in H as (out' & E' & H). injection H as <-. apply bind_ok in E as (i & Ei & E). injection E as <-.
  constructor; [eauto|auto].
Qed.
Print Assumptions percentile_selections.

(** The listed risk measures are exactly the labels the risk-based methods accept. *)
Theorem available_measures_accepted : forall f l, In l (available_risk_measures f) <-> exists v, risk_vector f (Some l) = Ok v.
Proof.
  intros f l. unfold available_risk_measures, risk_vector. destruct (String.eqb_spec l (f_measure f)) as [->|Hn].
  - split; [eauto|]. intros _. left. reflexivity.
  - destruct (lookup l (f_alt f)) as [v|] eqn:E.
    + split; [eauto|]. intros _. right. apply lookup_some_in in E. apply in_map_iff. exists (l, v). auto.
    + split; [|intros (v & H); discriminate]. intros [H|H]; [congruence|]. apply in_map_iff in H as ([k v] & Ek & I). cbn in Ek. subst k. exfalso. exact (lookup_none_in _ _ E v I).
Qed.
Print Assumptions available_measures_accepted.

(** The frame and the raw matrix of the sample export hold the same columns. *)
Theorem samples_agree : forall f columns,
  (forall fr, to_samples f columns true = Ok (SFrame fr) -> to_samples f columns false = Ok (SRaw (map snd (snd fr)) (fst fr))) /\
  (forall e, to_samples f columns true = Err e <-> to_samples f columns false = Err e).
Proof.
  intros f columns. unfold to_samples, to_frame. destruct (select_weights f columns) as [m|e] eqn:E; cbn [bind].
  - assert (L : forall zs, columns = Some zs -> List.length (map LInt zs) = List.length m).
    { intros zs ->. unfold select_weights in E. apply mapM_length in E. rewrite map_length. lia. }
    split.
    + intros fr. destruct columns as [zs|]; cbn [bind]; intros H; injection H as <-; cbn [fst snd]; rewrite map_snd_combine; auto.
      rewrite map_length, seq_length. reflexivity.
    + intros e. destruct columns; cbn [bind]; split; discriminate.
  - split; [intros fr H; discriminate|]. intros e'. split; intros H; injection H as ->; reflexivity.
Qed.
Print Assumptions samples_agree.
