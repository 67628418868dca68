(** Requested ensembles, helpers, and specs that answer. *)
From Coq Require Import String Ascii Permutation.
From Verif Require Import RBase QpBase SortLib RiskModel ConsModel ConsSpec MomModel MomSpec MomProofs DistModel DistSpec DistProofs DistProofs2 DistProperties ConvModel EpModel StModel OptModel OptSpec OptProofs EnsModel EnsSpec EnsProofs AsmModel FrModel FrSpec FrProofs FrProperties ExistSpec ExistProperties WrModel WrSpec WrProofs WrProofs7 WrProperties SpecModel SpecSpec SpecProofs SpecProofs2 SpecProofs3 SpecProofs4 SpecProofs5 SpecProofs6.
Open Scope R_scope.
Open Scope list_scope.

(** ** White space *)
Lemma is_space_lower a : is_space (lower_ascii a) = is_space a.
Proof.
  unfold lower_ascii. destruct (_ && _)%bool eqn:E; [|reflexivity]. apply andb_true_iff in E as [E1 E2]. apply Nat.leb_le in E1, E2.
  unfold is_space. rewrite nat_ascii_embedding by lia.
  repeat match goal with |- context [(?x <=? ?y)%nat] => destruct (Nat.leb_spec x y); try lia end; reflexivity.
Qed.
Lemma lstrip_lower s : lstrip (lower s) = lower (lstrip s).
Proof. induction s as [|a s IH]; [reflexivity|]. cbn. rewrite is_space_lower. destruct (is_space a); [exact IH|reflexivity]. Qed.
Lemma rstrip_lower s : rstrip (lower s) = lower (rstrip s).
Proof.
  induction s as [|a s IH]; [reflexivity|]. cbn. rewrite IH. destruct (rstrip s); cbn; [rewrite is_space_lower; destruct (is_space a); reflexivity|reflexivity].
Qed.
Lemma strip_lower s : strip (lower s) = lower (strip s).
Proof. unfold strip. rewrite rstrip_lower. apply lstrip_lower. Qed.
Lemma lstrip_idem s : lstrip (lstrip s) = lstrip s.
Proof. induction s as [|a s IH]; [reflexivity|]. cbn. destruct (is_space a) eqn:E; [exact IH|]. cbn. rewrite E. reflexivity. Qed.
Lemma rstrip_idem s : rstrip (rstrip s) = rstrip s.
Proof.
  induction s as [|a s IH]; [reflexivity|]. cbn. destruct (rstrip s) as [|b r] eqn:E.
  - destruct (is_space a) eqn:Ea; [reflexivity|]. cbn. rewrite Ea. reflexivity.
  - cbn in IH |- *. rewrite IH. reflexivity.
Qed.
Lemma rl_strip s : rstrip (lstrip s) = lstrip (rstrip s).
Proof.
  induction s as [|a s IH]; [reflexivity|]. cbn [lstrip]. destruct (is_space a) eqn:Ea.
  - rewrite IH. cbn [rstrip]. destruct (rstrip s) as [|b r] eqn:E; [rewrite Ea; reflexivity|]. cbn. rewrite Ea. reflexivity.
  - cbn [rstrip]. destruct (rstrip s); [rewrite Ea|]; cbn; rewrite Ea; reflexivity.
Qed.
Lemma strip_idem s : strip (strip s) = strip s.
Proof. unfold strip. rewrite rl_strip, rstrip_idem. apply lstrip_idem. Qed.
Lemma norm_idem s : lower (strip (lower (strip s))) = lower (strip s).
Proof. rewrite strip_lower, strip_idem. apply lower_idem. Qed.

(** ** The ensemble argument *)
Lemma names_nil a : ensemble_names a = [] <->
  a = ENone \/ (exists s, a = EStr s /\ (lower (strip s) = ""%string \/ lower (strip s) = "none"%string)) \/
  (exists l, a = ESeq l /\ forall s, In s l -> strip s = ""%string).
Proof.
  destruct a as [|s|l]; cbn [ensemble_names].
  - split; auto.
  - cbn [one_of existsb]. destruct (String.eqb_spec (lower (strip s)) "") as [E|E]; [|destruct (String.eqb_spec (lower (strip s)) "none") as [E'|E']]; cbn.
    + split; [|reflexivity]. intros _. right. left. exists s. auto.
    + split; [|reflexivity]. intros _. right. left. exists s. auto.
    + split; [discriminate|]. intros [H|[(s' & H & [H'|H'])|(l & H & _)]]; try discriminate; injection H as <-; contradiction.
  - split.
    + intros H. right. right. exists l. split; [reflexivity|]. intros s I.
      destruct (String.eqb_spec (strip s) "") as [E|E]; [exact E|]. exfalso.
      assert (In (lower (strip s)) []) as []. rewrite <- H. apply in_map_iff. exists s. split; [reflexivity|]. apply filter_In. split; [exact I|].
      destruct (String.eqb_spec s "") as [->|_]; [exfalso; apply E; reflexivity|]. destruct (String.eqb_spec (strip s) ""); [contradiction|reflexivity].
    + intros [H|[(s & H & _)|(l' & H & Hs)]]; try discriminate. injection H as <-.
      replace (filter _ l) with (@nil string); [reflexivity|]. symmetry. clear -Hs. induction l as [|s l IH]; [reflexivity|]. cbn [filter].
      rewrite (Hs s (or_introl eq_refl)). rewrite String.eqb_refl, andb_false_r. apply IH. intros x I. apply Hs. right. exact I.
Qed.

Lemma run_ens_names avg stack : forall nms r, run_ensembles avg stack nms = Ok r ->
  map fst r = nms /\ forall n, In n nms -> n = "average"%string \/ n = "stack"%string.
Proof.
  induction nms as [|n nms IH]; cbn; intros r H; [injection H as <-; split; [reflexivity|intros ? []]|].
  apply bind_ok in H as (b & Eb & H). apply bind_ok in H as (r' & Er & H). injection H as <-. destruct (IH _ Er) as [I1 I2]. cbn. rewrite I1. split; [reflexivity|].
  intros m [<-|I]; [|auto]. destruct (String.eqb_spec n "average"); [auto|]. destruct (String.eqb_spec n "stack"); [auto|discriminate].
Qed.
Lemma assemble_names solver specs nms md folds w r : assemble solver specs nms md folds w = Ok r ->
  map fst r = nms /\ md <> OtherMode /\ forall n, In n nms -> n = "average"%string \/ n = "stack"%string.
Proof.
  unfold assemble. destruct (Nat.eqb _ 0); [discriminate|]. destruct (Nat.eqb_spec (List.length nms) 0) as [E|E].
  - destruct nms; [|discriminate]. destruct md; try discriminate; intros H; injection H as <-; (split; [reflexivity|split; [discriminate|intros ? []]]).
  - destruct md; try discriminate; intros H.
    + apply bind_ok in H as (f & _ & H). destruct (run_ens_names _ _ _ _ H). split; [assumption|]. split; [discriminate|assumption].
    + apply bind_ok in H as (f & _ & H). apply bind_ok in H as (g & _ & H). destruct (run_ens_names _ _ _ _ H). split; [assumption|]. split; [discriminate|assumption].
Qed.

Lemma dict_set_keys {A} (d : list (string * A)) k v x : In x (map fst (dict_set d k v)) <-> x = k \/ In x (map fst d).
Proof.
  induction d as [|[k' v'] d IH]; cbn; [intuition|]. destruct (String.eqb_spec k k') as [->|Hn]; cbn; [intuition|]. rewrite IH. intuition.
Qed.
Lemma to_dict_keys_g {A} : forall (l d : list (string * A)) x, In x (map fst (fold_left (fun d kv => dict_set d (fst kv) (snd kv)) l d)) <-> In x (map fst l) \/ In x (map fst d).
Proof.
  induction l as [|[k v] l IH]; intros d x; cbn [fold_left map]; [cbn; intuition|]. rewrite IH. cbn [fst snd]. rewrite dict_set_keys. cbn. intuition.
Qed.
Lemma to_dict_keys {A} (l : list (string * A)) x : In x (map fst (to_dict l)) <-> In x (map fst l).
Proof. unfold to_dict. rewrite to_dict_keys_g. cbn. intuition. Qed.

Lemma run_spec_name rng s f sp : run_spec rng s = Ok (f, sp) -> sp_name sp = ps_name s /\ ps_frontier s = Ok f /\ exists r, ps_selector s f = Ok r /\ coerce rng f r = Ok (sp_selected sp).
Proof.
  unfold run_spec. intros H. apply bind_ok in H as (f' & E1 & H). apply bind_ok in H as (r & E2 & H). apply bind_ok in H as (l & E3 & H). injection H as <- <-. eauto.
Qed.

Lemma ensemble_request solver rng specs a comb folds w r : assemble_portfolio_ensemble solver rng specs a comb folds w = Ok r ->
  specs <> [] /\ (lower comb = "selected"%string \/ lower comb = "frontier"%string) /\
  (forall n, In n (ensemble_names a) -> n = "average"%string \/ n = "stack"%string) /\
  (forall n, In n (map fst (er_ensembles r)) <-> In n (ensemble_names a)) /\
  map fst (er_selections r) = map ps_name specs /\
  (forall n, In n (map fst (er_frontiers r)) <-> In n (map ps_name specs)).
Proof.
  unfold assemble_portfolio_ensemble. destruct (Nat.eqb_spec (List.length specs) 0) as [E|E]; [discriminate|]. intros H.
  apply bind_ok in H as (rs & Ers & H). apply bind_ok in H as (es & Ees & H). injection H as <-. cbn [er_ensembles er_selections er_frontiers].
  destruct (assemble_names _ _ _ _ _ _ _ Ees) as (A1 & A2 & A3).
  assert (EN : map (fun x : frontier_t * AsmModel.spec => sp_name (snd x)) rs = map ps_name specs).
  { clear -Ers. revert rs Ers. induction specs as [|s specs IH]; cbn; intros rs H; [injection H as <-; reflexivity|].
    apply bind_ok in H as ([f sp] & E1 & H). apply bind_ok in H as (rs' & E2 & H). injection H as <-. cbn. rewrite (IH _ E2). f_equal.
    apply (run_spec_name _ _ _ _ E1). }
  split; [destruct specs; [contradiction|discriminate]|]. split.
  { unfold mode_of in A2. destruct (String.eqb_spec (lower comb) "selected"); [auto|]. destruct (String.eqb_spec (lower comb) "frontier"); [auto|congruence]. }
  split; [exact A3|]. split; [intros n; rewrite to_dict_keys, A1; reflexivity|]. split.
  - rewrite map_map. exact EN.
  - intros n. rewrite to_dict_keys, map_map. cbn [fst]. rewrite EN. reflexivity.
Qed.

(** ** Stacking arbitrary entries *)
Lemma stack_portfolios_l solver entries sel L v labs c n : (forall q x, solver q = Some x -> qp_feasible q x) -> Forall well_shaped entries ->
  (forall e, In e entries -> entry_dim e = n /\ forall x, In x (entry_columns e) -> satisfies c n (to_list n x)) ->
  stack_portfolios solver entries sel L = Ok (v, labs) -> allowed c n v.
Proof.
  intros HS WS HC H. unfold stack_portfolios in H. apply bind_ok in H as (p & Ep & H).
  destruct (collect_samples_ok _ _ _ WS Ep) as (ss & ps & _ & Ls & F2 & Ec & Hnn & D & A & _).
  destruct (stacking_convex solver _ _ _ _ HS H) as (ws & CW & CC). cbn [pn_cols] in CW, CC.
  eapply comb_satisfies; eauto. rewrite Ec. intros x Ix. apply in_concat in Ix as (pc & Ip & Ix).
  assert (G : forall es qs, Forall2 (fun es c0 => contributes (fst es) (snd es) c0) es qs -> In pc qs -> exists e s, In (e, s) es /\ contributes e s pc).
  { clear. induction 1 as [|[e s] pc' es ps' Hh F2 IH]; [intros []|]. intros [->|I]; [exists e, s; split; [left; reflexivity|exact Hh]|].
    destruct (IH I) as (e' & s' & I' & H'). exists e', s'. split; [right; exact I'|exact H']. }
  destruct (G _ _ F2 Ip) as (e & s & Ie & Hc). apply in_combine_l in Ie. destruct (HC e Ie) as [_ HX]. apply HX. destruct e as [f|q]; cbn in Hc |- *.
  - destruct Hc as (k & Hk & -> & _). destruct Ix as [<-|[]]. apply nth_In. exact Hk.
  - destruct Hc as [<- _]. exact Ix.
Qed.

(** ** Specs that answer *)
Lemma mv_frontier_nonempty solve lp n mean cov G A w0 lam num cols : mv_frontier solve lp n mean cov G A w0 lam num = Ok cols -> cols <> [].
Proof.
  unfold mv_frontier. intros H. apply bind_ok in H as ([P q] & _ & H). apply bind_ok in H as (first & _ & H). apply bind_ok in H as (mr & _ & H).
  unfold OptModel.frontier in H. destruct (_ || _)%bool; [injection H as <-; discriminate|]. apply bind_ok in H as (cs & _ & H). injection H as <-. discriminate.
Qed.
Lemma default_frontier W d s : exact_env (wd_env W) -> complete_qp (e_qp (wd_env W)) -> complete_cp (e_lp (wd_env W)) -> built d ->
  d_mu d <> None -> d_cov d <> None -> In (lower s) ["mean_variance"; "mv"]%string ->
  exists f, frontier_factory W (Ok d) (OptName s) (plain_options CNone None) = Ok f /\ (0 < size f)%nat.
Proof.
  intros HE Hq Hl HB Hm Hc Hs. pose proof HB as (i & Ei). pose proof (make_dist_valid _ _ Ei) as V.
  assert (HN : (0 < d_N d)%nat) by (destruct V; assumption).
  destruct (build_wrapper d CNone None true (Some (Num (Fin 1))) None) as [w Ew].
  { intros k Ek. discriminate. }
  { apply default_well_formed. exact HN. }
  assert (Esw : spec_wrapper d CNone = Ok w) by (unfold spec_wrapper; rewrite Ew; reflexivity).
  destruct (spec_wrapper_constructed d CNone w HB Esw) as (HC & Dw & _ & _). change (spec_constraints CNone) with default_constraints in HC.
  destruct (d_mu d) as [m|] eqn:Em; [|contradiction]. destruct (d_cov d) as [cv|] eqn:Ecv; [|contradiction].
  assert (HM : moments w (as_vec m) (as_mat (assets w) cv)). { exists m, cv. rewrite Dw. auto. }
  assert (HA : assets w = d_N d) by (unfold assets; rewrite Dw; reflexivity).
  assert (HNw : (0 < assets w)%nat) by (rewrite HA; exact HN).
  destruct (variance_frontier_answers (wd_env W) w default_constraints CNone None 10%Z (as_vec m) (as_mat (assets w) cv) HE Hq Hl HC (default_in_force CNone _ HNw)) as [AN _].
  { intros k Ek. discriminate. }
  { apply default_well_formed. exact HNw. }
  { exact HM. }
  { apply default_bounded. }
  destruct AN as [f Ef].
  { exists (fun _ => 1 / INR (assets w)). apply allowed_default. assert (0 < INR (assets w)) by (apply lt_0_INR; exact HNw). split.
    - intros. left. apply Rdiv_lt_0_compat; lra.
    - rewrite sumn_const. field. lra. }
  exists f. split.
  - unfold frontier_factory. cbn [bind]. change (o_cons (plain_options CNone None)) with CNone. rewrite Esw. cbn [bind].
    unfold resolve_optimiser. rewrite (proj2 (one_of_in (lower s) ["mean_variance"; "mv"]%string) Hs). cbn [bind]. exact Ef.
  - unfold variance_frontier in Ef. apply bind_ok in Ef as (mc & _ & Ef). apply bind_ok in Ef as (mm & _ & Ef). destruct (resolve_costs w None) as [[iw mic] pc].
    apply bind_ok in Ef as (cols & Ecols & Ef). apply mv_frontier_nonempty in Ecols. destruct (proj1 (proj1 (frontier_shapes _ _ _ _ _ _ _) f) Ef) as [-> _].
    unfold size. cbn. rewrite ?map_length. destruct cols; [contradiction|cbn; lia].
Qed.
Lemma min_risk_total argsort rng f : FrSpec.well_formed f -> (0 < size f)%nat -> exists r, run_closure argsort rng (Chosen (SelMinRisk None)) f = Ok r.
Proof.
  intros WF HS. unfold run_closure, run_selector; cbn [snd]. destruct (min_risk f None) as [s|e] eqn:E; [cbn; eauto|]. exfalso.
  destruct (proj1 (proj2 (min_risk_selects f None WF HS) e) E) as [_ U]. red in U. destruct U as (l & H & _). discriminate.
Qed.

(** ** Assembling answering specs *)
Definition answering (rng : nat -> string) (s : pspec) : Prop := exists f r l, ps_frontier s = Ok f /\ ps_selector s f = Ok r /\ coerce rng f r = Ok l.
Lemma run_specs_total rng specs : Forall (answering rng) specs -> exists rs, mapM (run_spec rng) specs = Ok rs /\ List.length rs = List.length specs.
Proof.
  induction 1 as [|s specs (f & r & l & E1 & E2 & E3) _ (rs & IH & L)]; [exists []; split; reflexivity|].
  assert (E : run_spec rng s = Ok (f, AsmModel.mkSpec (ps_name s) (to_ens f) l (ps_selection s))).
  { unfold run_spec. rewrite E1. cbn [bind]. rewrite E2. cbn [bind]. rewrite E3. reflexivity. }
  eexists. cbn [mapM]. rewrite E. cbn [bind]. rewrite IH. cbn [bind]. split; [reflexivity|]. cbn. lia.
Qed.
Lemma average_total solver rng specs folds : specs <> [] -> Forall (answering rng) specs ->
  exists r, assemble_portfolio_ensemble solver rng specs (EStr "average") "selected" folds WNone = Ok r.
Proof.
  intros Hne HA. unfold assemble_portfolio_ensemble. destruct (Nat.eqb_spec (List.length specs) 0) as [E|E]; [destruct specs; [contradiction|discriminate]|].
  destruct (run_specs_total rng specs HA) as (rs & -> & L). cbn [bind].
  change (ensemble_names (EStr "average")) with ["average"%string]. change (mode_of "selected") with Selected. unfold assemble.
  destruct (Nat.eqb_spec (List.length (map snd rs)) 0) as [E'|E']; [rewrite map_length in E'; lia|]. cbn [Nat.eqb List.length].
  unfold determine_stack_folds.
  assert (G : exists f, determine_stack_folds folds (Z.of_nat (List.length (map snd rs))) = Ok f).
  { unfold determine_stack_folds. rewrite map_length.
    repeat match goal with |- context [if ?b then _ else _] => destruct b eqn:?; try (eexists; reflexivity) end; try (exfalso; lia); eexists; reflexivity. }
  destruct G as (f & G). unfold determine_stack_folds in G. rewrite G. cbn [bind run_ensembles String.eqb Ascii.eqb Bool.eqb].
  unfold average_selected, normalize_weights. destruct (Nat.eqb_spec (List.length (map snd rs)) 0) as [|_]; [contradiction|]. cbn [bind]. eauto.
Qed.
Lemma default_answering W eig est name src d s sel cols ps : exact_env (wd_env W) -> complete_qp (e_qp (wd_env W)) -> complete_cp (e_lp (wd_env W)) ->
  build_distribution eig est src = Ok d -> built d -> d_mu d <> None -> d_cov d <> None -> In (lower s) ["mean_variance"; "mv"]%string -> In (lower sel) (aliases FMinRisk) ->
  make_portfolio_spec W eig est name src (OptName s) (plain_options CNone None) (SelName sel) [] cols = Ok ps -> answering (wd_rng W) ps.
Proof.
  intros HE Hq Hl Ed HB Hm Hc Hs Hsel H. destruct (default_frontier W d s HE Hq Hl HB Hm Hc Hs) as (f & Ef & HS).
  unfold make_portfolio_spec, selector_of in H. apply bind_ok in H as (g & Eg & H). injection H as <-. apply bind_ok in Eg as (c & Ec & Eg). injection Eg as <-.
  rewrite (build_family _ _ FMinRisk Hsel) in Ec. cbn in Ec. injection Ec as <-.
  assert (WF : FrSpec.well_formed f).
  { destruct (factory_allowed W (Ok d) s (plain_options CNone None) f HE) as (d1 & _ & F & _); [intros d1 [= <-]; exact HB|exact Ef|]. exact F. }
  destruct (min_risk_total (e_sort (wd_env W)) (wd_rng W) f WF HS) as (r & Er).
  assert (exists l, coerce (wd_rng W) f r = Ok l) as (l & El).
  { unfold run_closure in Er. apply bind_ok in Er as (w & _ & Er). injection Er as <-. cbn. eauto. }
  exists f, r, l. cbn [ps_frontier ps_selector]. split; [rewrite Ed; exact Ef|]. split; [exact Er|exact El].
Qed.
Lemma map_snd_combine {A B} : forall (l : list A) (m : list B), List.length l = List.length m -> map snd (combine l m) = m.
Proof. induction l as [|a l IH]; intros [|b m] H; try discriminate; [reflexivity|]. cbn. rewrite IH by (cbn in H; lia). reflexivity. Qed.
