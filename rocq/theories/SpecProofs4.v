(** Portfolios produced by a spec satisfy its constraints. *)
From Coq Require Import String.
From Verif Require Import RBase QpBase SortLib RiskModel ConsModel ConsSpec MomModel MomSpec DistModel DistSpec ConvModel EpModel StModel OptModel EnsModel EnsSpec AsmModel FrModel FrSpec WrModel WrSpec WrProperties DistProperties SpecModel SpecSpec SpecProofs.
Open Scope R_scope.
Open Scope list_scope.

Lemma spec_wrapper_make d arg w : spec_wrapper d arg = Ok w -> make_wrapper d arg None true (Some (Num (Fin 1))) None = Ok w.
Proof.
  unfold spec_wrapper. intros H. apply bind_ok in H as (w0 & E0 & H). destruct arg as [|c|e]; [congruence| |].
  - apply bind_ok in H as ([m ws] & Em & H). unfold make_wrapper in *. apply bind_ok in E0 as ([m0 ws0] & _ & E0). cbn [apply_costs bind] in E0. cbn [asked]. rewrite Em. cbn [bind].
    cbn [apply_costs bind]. rewrite <- H. injection E0 as <-. reflexivity.
  - apply bind_ok in H as ([m ws] & Em & H). unfold make_wrapper in *. apply bind_ok in E0 as ([m0 ws0] & _ & E0). cbn [apply_costs bind] in E0. cbn [asked]. rewrite Em. cbn [bind].
    cbn [apply_costs bind]. rewrite <- H. injection E0 as <-. reflexivity.
Qed.
Lemma spec_wrapper_constructed d arg w : built d -> spec_wrapper d arg = Ok w -> constructed w (spec_constraints arg) /\ w_dist w = d /\ w_unc w = None /\ w_log w = false.
Proof.
  intros (i & Ei) H. apply spec_wrapper_make in H. split.
  - replace (spec_constraints arg) with (asked arg true (Some (Num (Fin 1))) None) by (destruct arg; reflexivity). eapply by_init; eauto.
  - unfold make_wrapper in H. apply bind_ok in H as ([m ws] & _ & H). cbn [apply_costs bind] in H. injection H as <-. auto.
Qed.

Lemma make_frontier_fields n cols ret risk ms names alt f : make_frontier n cols ret risk ms names alt = Ok f -> FrSpec.well_formed f /\ f_n f = n /\ f_names f = names.
Proof.
  unfold make_frontier. intros H. apply guard_ok in H as [H1 H]. apply guard_ok in H as [H2 H]. apply guard_ok in H as [H3 H]. apply guard_ok in H as [H4 H].
  injection H as <-. cbn. split; [|auto]. unfold FrSpec.well_formed, size; cbn. apply Nat.eqb_eq in H1, H2. split; [exact H1|]. split; [exact H2|]. split.
  - intros l ->. apply Nat.eqb_eq. exact H3.
  - intros k v I. rewrite forallb_forall in H4. specialize (H4 _ I). apply Nat.eqb_eq in H4. exact H4.
Qed.

Definition shape (w : wrapper) (f : frontier_t) : Prop := FrSpec.well_formed f /\ f_n f = d_N (w_dist w) /\ f_names f = d_names (w_dist w).
Lemma shape_mv E w num arg k f : variance_frontier E w num arg k = Ok f -> shape w f.
Proof.
  unfold variance_frontier. intros H. apply bind_ok in H as (mc & _ & H). apply bind_ok in H as (m & _ & H). destruct (resolve_costs w k) as [[iw mic] pc].
  apply bind_ok in H as (cols & _ & H). exact (make_frontier_fields _ _ _ _ _ _ _ _ H).
Qed.
Lemma shape_cvar E sim lab raw w num alpha enf arg k f : cvar_frontier_w E sim lab raw w num alpha enf arg k = Ok f -> shape w f.
Proof.
  unfold cvar_frontier_w. intros H. apply bind_ok in H as ([[[T X] p] mu] & _ & H). apply bind_ok in H as (m & _ & H). destruct (resolve_costs w k) as [[iw mic] pc].
  apply bind_ok in H as (cols & _ & H). apply bind_ok in H as (risks & _ & H). destruct (cvar_post _ _ _ _ _ _) as [[[[c1 c2] c3] c4] c5]. exact (make_frontier_fields _ _ _ _ _ _ _ _ H).
Qed.
Lemma shape_robust E w num mx lams rc arg k f pen : robust_lambda_frontier E w num mx lams rc arg k = Ok (f, pen) -> shape w f.
Proof.
  unfold robust_lambda_frontier. intros H. apply bind_ok in H as (mc & _ & H). apply bind_ok in H as (m & _ & H). destruct (resolve_costs w k) as [[iw mic] pc].
  apply bind_ok in H as (grid & _ & H). apply bind_ok in H as ([[a risks] cols] & _ & H). apply bind_ok in H as (f' & Hf & H). injection H as <- _. exact (make_frontier_fields _ _ _ _ _ _ _ _ Hf).
Qed.
Lemma shape_rrp E w num mx lam mults inc rb arg k f meta : relaxed_risk_parity_frontier E w num mx lam mults inc rb arg k = Ok (f, meta) -> shape w f.
Proof.
  unfold relaxed_risk_parity_frontier. intros H. apply bind_ok in H as (mc & _ & H). destruct (Rltb lam 0); [discriminate|]. apply bind_ok in H as (m & _ & H).
  apply bind_ok in H as (base & _ & H). apply bind_ok in H as (grid & _ & H). apply bind_ok in H as (pts & _ & H). apply bind_ok in H as (f' & Hf & H). injection H as <- _. exact (make_frontier_fields _ _ _ _ _ _ _ _ Hf).
Qed.

(** Every built-in optimiser. *)
Lemma optimiser_allowed W s g w c k f : exact_env (wd_env W) -> constructed w c -> resolve_optimiser W (OptName s) = Ok g -> g w k = Ok f ->
  frontier_allowed c (d_names (w_dist w)) (d_N (w_dist w)) f.
Proof.
  intros HE HC Hg Hf. destruct (every_result_satisfies_constraints (wd_env W) w c CNone (o_costs k) HE HC) as (_ & _ & _ & _ & A1 & A2 & A3 & A4).
  apply optimiser_ok_iff in Hg as (call & L & ->). unfold frontier_allowed.
  assert (Cs : call = call_mv \/ call = call_cvar \/ call = call_robust \/ call = call_rrp).
  { revert L. unfold optimiser_table. cbn [lookup]. repeat (destruct (String.eqb _ _); [intros L; injection L as <-; auto|]). discriminate. }
  destruct Cs as [->|[->|[->| ->]]].
  - unfold call_mv in Hf. destruct (orb _ _); [discriminate|]. destruct (shape_mv _ _ _ _ _ _ Hf) as (S1 & S2 & S3). repeat (split; [assumption|]). exact (A1 _ _ Hf).
  - unfold call_cvar in Hf. destruct (orb _ _); [discriminate|]. destruct (shape_cvar _ _ _ _ _ _ _ _ _ _ _ Hf) as (S1 & S2 & S3). repeat (split; [assumption|]). exact (A2 _ _ _ _ _ _ _ Hf).
  - unfold call_robust in Hf. destruct (orb _ _); [discriminate|]. apply bind_ok in Hf as ([f' pen] & Hf & E). injection E as <-.
    destruct (shape_robust _ _ _ _ _ _ _ _ _ _ Hf) as (S1 & S2 & S3). repeat (split; [assumption|]). exact (A3 _ _ _ _ _ _ Hf).
  - unfold call_rrp in Hf. destruct (orb _ _); [discriminate|]. apply bind_ok in Hf as ([f' meta] & Hf & E). injection E as <-.
    destruct (shape_rrp _ _ _ _ _ _ _ _ _ _ _ _ Hf) as (S1 & S2 & S3). repeat (split; [assumption|]). exact (A4 _ _ _ _ _ _ _ _ Hf).
Qed.
Lemma factory_allowed W src s k f : exact_env (wd_env W) -> (forall d, src = Ok d -> built d) -> frontier_factory W src (OptName s) k = Ok f ->
  exists d, src = Ok d /\ frontier_allowed (spec_constraints (o_cons k)) (d_names d) (d_N d) f.
Proof.
  intros HE HB H. unfold frontier_factory in H. apply bind_ok in H as (d & Ed & H). apply bind_ok in H as (w & Ew & H). apply bind_ok in H as (g & Eg & H).
  destruct (spec_wrapper_constructed _ _ _ (HB d Ed) Ew) as (HC & Hd & _). exists d. split; [exact Ed|]. rewrite <- Hd. eapply optimiser_allowed; eauto.
Qed.

(** A selector on an empty frontier raises. *)
Lemma argbest_nil {A} (b : A -> A -> bool) : exists e, argbest b [] = Err e.
Proof. eexists. reflexivity. Qed.
Lemma closure_nonempty argsort rng c f r : FrSpec.well_formed f -> sorts Rle 0 argsort -> run_closure argsort rng c f = Ok r -> (0 < size f)%nat.
Proof.
  intros (W1 & W2 & _ & W4) Hs H. destruct (Nat.eq_dec (size f) 0) as [Z0|Z0]; [|lia]. exfalso. rewrite Z0 in *.
  assert (C0 : f_cols f = []) by (destruct (f_cols f); [reflexivity|discriminate]). assert (R0 : f_risk f = []) by (destruct (f_risk f); [reflexivity|discriminate]).
  assert (T0 : f_ret f = []) by (unfold size in Z0; destruct (f_ret f); [reflexivity|discriminate]).
  assert (V0 : forall l v, risk_vector f l = Ok v -> v = []).
  { intros [l|] v; unfold risk_vector; [|congruence]. destruct (String.eqb l (f_measure f)); [congruence|]. destruct (lookup l (f_alt f)) as [x|] eqn:L; [|discriminate].
    intros E. injection E as <-. apply lookup_some_in in L. apply W4 in L. destruct x; [reflexivity|discriminate]. }
  destruct c as [s|e]; [|discriminate]. cbn [run_closure] in H. apply bind_ok in H as (w & H & _). destruct s; cbn [run_selector snd] in H; apply bind_ok in H as (x & H & _).
  - unfold tangency in H. rewrite R0 in H. discriminate.
  - unfold min_risk in H. apply bind_ok in H as (v & Ev & H). apply V0 in Ev. subst v. discriminate.
  - unfold max_return in H. rewrite T0 in H. discriminate.
  - unfold at_risk in H. apply bind_ok in H as (v & Ev & H). apply V0 in Ev. subst v. discriminate.
  - unfold closest_risk in H. apply bind_ok in H as (v & Ev & H). apply V0 in Ev. subst v. discriminate H.
  - unfold at_percentile in H. apply bind_ok in H as (q & _ & H). apply bind_ok in H as (i & H & _). unfold index_at_risk_percentile in H. apply bind_ok in H as (q' & _ & H).
    apply bind_ok in H as (ps & Hps & H). unfold risk_percentiles in Hps. apply bind_ok in Hps as (v & Ev & Hps). apply V0 in Ev. subst v.
    revert Hps H. cbn. intros Hps H. first [discriminate | (injection Hps as <-; discriminate) | idtac].
  - rewrite C0 in H. unfold np_index in H. cbn [List.length Z.of_nat] in H. destruct ((z <? - 0) || (0 <=? z))%Z eqn:B; [discriminate|]. apply orb_false_iff in B as [B1 B2]. lia.
Qed.

Lemma closure_allowed argsort rng sel kw c f names cst r : sorts Rle 0 argsort -> frontier_allowed cst (Some names) (List.length names) f ->
  build_selector sel kw = Ok c -> run_closure argsort rng c f = Ok r -> exists l, r = Plain (OSeries l) /\ labelled_allowed cst names l.
Proof.
  intros Hs (W & _ & Hnm & Hc) Hb Hr. pose proof (closure_nonempty _ _ _ _ _ W Hs Hr) as Hn.
  destruct (selector_picks_l _ _ _ _ _ _ _ Hs W Hn Hb Hr) as (fm & i & _ & _ & Hi & ->). eexists. split; [reflexivity|].
  exists (nth i (f_cols f) []). destruct (Hc (nth i (f_cols f) [])) as [L S]; [apply nth_In; destruct W as (W1 & _); rewrite W1; exact Hi|].
  split; [exact L|]. split; [unfold labelled; rewrite Hnm; reflexivity|exact S].
Qed.
Lemma spec_sound W eig est name src s k sel kw cols ps names : exact_env (wd_env W) ->
  (forall d, build_distribution eig est src = Ok d -> built d /\ d_names d = Some names) ->
  make_portfolio_spec W eig est name src (OptName s) k (SelName sel) kw cols = Ok ps -> sound_spec (spec_constraints (o_cons k)) names ps.
Proof.
  intros HE HB H. unfold make_portfolio_spec in H. apply bind_ok in H as (fn & Ef & H). injection H as <-. cbn [selector_of] in Ef. apply bind_ok in Ef as (cl & Ec & Ef). injection Ef as <-.
  assert (A : forall f, frontier_factory W (build_distribution eig est src) (OptName s) k = Ok f -> frontier_allowed (spec_constraints (o_cons k)) (Some names) (List.length names) f).
  { intros f Hf. destruct (factory_allowed _ _ _ _ _ HE (fun d E => proj1 (HB d E)) Hf) as (d & Ed & Hd). destruct (HB d Ed) as [(i & Ei) Hnm].
    rewrite Hnm in Hd. pose proof (DistProperties.distribution_is_valid i d Ei) as V. rewrite (vd_names d V names Hnm). exact Hd. }
  split; cbn [ps_frontier ps_selector]; [exact A|]. intros f r Hf Hr. eapply closure_allowed; eauto. apply HE.
Qed.
