(** Keyword arguments of the estimators chosen by [estimate_moments] (C177). *)
From Coq Require Import List Lia Lra ZArith String Permutation.
Import ListNotations.
From Verif Require Import Err RBase QpBase MomModel GlModel PoModel EmModel EmSpec EmProofs EmProperties.
From Verif Require SpecModel.
Open Scope R_scope.
Open Scope list_scope.

(** The documented keywords of each estimator. *)
Definition mean_options : list (string * list string) :=
  [("jorion", []); ("james_stein", ["target"]); ("huber", ["allow_vectorized"; "tol"; "max_iter"]);
   ("median_of_means", ["n_blocks"; "random_state"])]%string.
Definition cov_options : list (string * list string) :=
  [("ledoit_wolf", ["target"]); ("oas", ["assume_centered"]); ("nls", ["input_is_cov"; "dof_correction"]);
   ("poet", ["k"; "thresh"; "standardize"; "return_decomp"]);
   ("tyler", ["shrinkage"; "target"; "tol"; "max_iter"; "ensure_psd"]);
   ("glasso", ["alpha"; "assume_centered"; "return_precision"]); ("ewma", ["span"; "min_periods"])]%string.
Definition foreign (names : list string) (kw : kws) : Prop := exists k v, In (k, v) kw /\ ~ In k names.

Lemma accept_foreign names kw : foreign names kw -> accept names kw = Err TypeError.
Proof.
  intros (k & v & H1 & H2). unfold accept. destruct (forallb _ kw) eqn:E; [|reflexivity]. exfalso. rewrite forallb_forall in E.
  specialize (E _ H1). unfold SpecModel.one_of in E. apply existsb_exists in E as (x & Hx & E). apply String.eqb_eq in E. cbn in E. subst x. auto.
Qed.

Lemma em_mean_foreign env R_ ms m kw e names : In (e, names) mean_options -> means_name mean_groups e m -> foreign names kw ->
  em_mean env R_ ms m kw = Err TypeError.
Proof.
  intros HI Hm HF. pose proof (accept_foreign _ _ HF) as HA.
  assert (He : SpecModel.lower e = e) by (cbn in HI; repeat destruct HI as [HI|HI]; try contradiction; injection HI as <- <-; reflexivity).
  rewrite (em_mean_alias _ _ _ _ _ _ (means_name_fst _ _ _ Hm He)).
  cbn in HI. repeat destruct HI as [HI|HI]; try contradiction; injection HI as <- <-; unfold em_mean, em_huber, em_mom;
    cbn [SpecModel.lower SpecModel.lower_ascii SpecModel.one_of existsb]; 
    match goal with |- context [accept ?l kw] => rewrite HA end; reflexivity.
Qed.
Lemma em_cov_foreign env R_ S0 c kw e names : In (e, names) cov_options -> means_name cov_groups e c -> foreign names kw ->
  em_cov env R_ S0 c kw = Err TypeError.
Proof.
  intros HI Hm HF. pose proof (accept_foreign _ _ HF) as HA.
  assert (He : SpecModel.lower e = e) by (cbn in HI; repeat destruct HI as [HI|HI]; try contradiction; injection HI as <- <-; reflexivity).
  rewrite (em_cov_alias _ _ _ _ _ _ (means_name_fst _ _ _ Hm He)).
  cbn in HI. repeat destruct HI as [HI|HI]; try contradiction; injection HI as <- <-; unfold em_cov; rewrite HA; reflexivity.
Qed.

(** A keyword that the chosen estimator does not have raises TypeError, provided the data themselves are
    accepted (and, for a covariance keyword, the mean is computed). *)
Theorem foreign_estimator_option_raises : forall env R_ p m c mkw ckw e names,
  (In (e, names) mean_options -> means_name mean_groups e m -> foreign names mkw ->
     (exists r, estimate_moments_full env R_ p "sample" "sample" [] [] = Ok r) ->
     estimate_moments_full env R_ p m c mkw ckw = Err TypeError) /\
  (In (e, names) cov_options -> means_name cov_groups e c -> foreign names ckw ->
     (exists r, estimate_moments_full env R_ p m "sample" mkw [] = Ok r) ->
     estimate_moments_full env R_ p m c mkw ckw = Err TypeError).
Proof.
  intros env R_ p m c mkw ckw e names. unfold estimate_moments_full. split; intros HI Hm HF [r Er]; destruct (negb _); try discriminate;
    apply bind_ok in Er as (ms & E1 & Er); rewrite E1; cbn [bind].
  - rewrite (em_mean_foreign _ _ _ _ _ _ _ HI Hm HF). reflexivity.
  - apply bind_ok in Er as (mu & E2 & _). rewrite E2. cbn [bind]. rewrite (em_cov_foreign _ _ _ _ _ _ _ HI Hm HF). reflexivity.
Qed.
Print Assumptions foreign_estimator_option_raises.

(** The sample estimators are the exception: whatever keywords they are given are ignored (finding F104). *)
Theorem sample_option_raises_refuted : forall env R_ p m c mkw mkw' ckw ckw',
  (means_name mean_groups "sample" m -> estimate_moments_full env R_ p m c mkw ckw = estimate_moments_full env R_ p m c mkw' ckw) /\
  (means_name cov_groups "sample" c -> estimate_moments_full env R_ p m c mkw ckw = estimate_moments_full env R_ p m c mkw ckw').
Proof.
  intros env R_ p m c mkw mkw' ckw ckw'. unfold estimate_moments_full. split; intros H; (destruct (negb _); [reflexivity|]); destruct (em_sample R_ p) as [ms|e]; try reflexivity; cbn [bind].
  - rewrite !(em_mean_alias _ _ _ m "sample"%string) by (apply means_name_fst; [exact H|reflexivity]). reflexivity.
  - destruct (em_mean _ _ _ _ _) as [mu|e]; [|reflexivity]. cbn [bind].
    rewrite !(em_cov_alias _ _ _ c "sample"%string) by (apply means_name_fst; [exact H|reflexivity]). reflexivity.
Qed.
Print Assumptions sample_option_raises_refuted.

(** Two assets, two observations: the hypotheses are met, and "tolerance" is not a keyword of the Huber mean. *)
Example foreign_option_case : forall env,
  let R_ := mkFr 2 2 2 (fun t i => if Nat.eqb t i then 1 else 0) Arr in
  (exists r, estimate_moments_full env R_ None "sample" "sample" [] [] = Ok r) /\
  estimate_moments_full env R_ None "Huber" "sample" [("tolerance", KvNum 1)]%string [] = Err TypeError /\
  estimate_moments_full env R_ None "sample" "EWMA" [] [("halflife", KvNum 1)]%string = Err TypeError.
Proof.
  intros env R_. assert (H : exists r, estimate_moments_full env R_ None "sample" "sample" [] [] = Ok r) by (eexists; reflexivity).
  split; [exact H|]. split.
  - apply (proj1 (foreign_estimator_option_raises env R_ None "Huber" "sample" [("tolerance", KvNum 1)]%string [] "huber" ["allow_vectorized"; "tol"; "max_iter"]%string)); [cbn; tauto| | |exact H].
    + exists ["huber"; "robust_huber"]%string. cbn; tauto.
    + exists "tolerance"%string, (KvNum 1). split; [left; reflexivity|]. cbn. intuition discriminate.
  - apply (proj2 (foreign_estimator_option_raises env R_ None "sample" "EWMA" [] [("halflife", KvNum 1)]%string "ewma" ["span"; "min_periods"]%string)); [cbn; tauto| | |exact H].
    + exists ["ewma"]%string. cbn; tauto.
    + exists "halflife"%string, (KvNum 1). split; [left; reflexivity|]. cbn. intuition discriminate.
Qed.
