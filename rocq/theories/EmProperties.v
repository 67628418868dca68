(** Properties of [estimate_moments]: names, positive semidefiniteness, independence, default probabilities, labels. *)
From Coq Require Import List Lia Lra ZArith String Permutation FunctionalExtensionality.
Import ListNotations.
From Verif Require Import Err RBase QpBase MomModel MomSpec MomProofs MomProofs2 MomProofs3 MomProperties GlModel GlSpec GlProofs GlProofs3 GlProperties PoModel EmModel EmSpec EmProofs.
From Verif Require SpecModel.
Open Scope R_scope.
Open Scope list_scope.

(** * Names *)
Theorem estimator_names :
  forall env R_ p m m' c c' mkw ckw,
    (same_estimator mean_groups m m' -> same_estimator cov_groups c c' ->
       estimate_moments_full env R_ p m c mkw ckw = estimate_moments_full env R_ p m' c' mkw ckw) /\
    (~ known mean_groups m \/ ~ known cov_groups c -> forall r, estimate_moments_full env R_ p m c mkw ckw <> Ok r) /\
    (known cov_groups c -> ~ known mean_groups m -> estimate_moments_full env R_ p m c mkw ckw = Err ValueError) /\
    (~ known cov_groups c -> means_name mean_groups "sample" m -> estimate_moments_full env R_ p m c mkw ckw = Err ValueError).
Proof.
  intros env R_ p m m' c c' mkw ckw. unfold estimate_moments_full.
  assert (ES : forall e, em_sample R_ p = Err e -> e = ValueError).
  { intros e. unfold em_sample. destruct p as [w|].
    - intros H. destruct (estimate_sample_moments _ _ _ _ _ _ _) as [[[a b] d]|e'] eqn:E; [discriminate|]. injection H as <-.
      unfold estimate_sample_moments in E. destruct (negb _); [congruence|]. destruct (negb _); [congruence|].
      destruct (labels _) as [l|e2] eqn:EL; cbn [bind] in E.
      + unfold wrap_labels in E. destruct l; [|discriminate]. destruct (_ =? _)%nat; [discriminate|]. cbn [bind] in E. congruence.
      + unfold labels in EL. cbn [labels_from] in EL. destruct (fr_lab R_), (wt_lab w); cbn [labels_from] in EL; try discriminate. destruct (_ && _)%bool; congruence.
    - unfold labels. destruct (fr_lab R_); cbn [labels_from bind wrap_labels].
      + destruct (_ =? 1)%nat; discriminate.
      + destruct (_ =? _)%nat; cbn [bind]; [|congruence]. destruct (_ =? 1)%nat; congruence. }
  split; [|split; [|split]].
  - intros Hm Hc. destruct (negb _); [reflexivity|]. destruct (em_sample R_ p) as [ms|e]; [|reflexivity]. cbn [bind].
    rewrite (em_mean_alias _ _ _ _ _ _ Hm). destruct (em_mean _ _ _ m' _); [|reflexivity]. cbn [bind]. rewrite (em_cov_alias _ _ _ _ _ _ Hc). reflexivity.
  - intros H r E. destruct (negb _); [discriminate|]. apply bind_ok in E as (ms & _ & E). apply bind_ok in E as (mu & E1 & E). apply bind_ok in E as (Sg & E2 & _).
    destruct H as [H|H]; [rewrite em_mean_unknown in E1 by exact H|rewrite em_cov_unknown in E2 by exact H]; discriminate.
  - intros Hc H. destruct (negb _); [reflexivity|]. destruct (em_sample R_ p) as [ms|e] eqn:E; cbn [bind]; [|rewrite (ES e eq_refl); reflexivity].
    rewrite em_mean_unknown by exact H. reflexivity.
  - intros H Hm. destruct (negb _); [reflexivity|]. destruct (em_sample R_ p) as [ms|e] eqn:E; cbn [bind]; [|rewrite (ES e eq_refl); reflexivity].
    rewrite (em_mean_alias _ _ _ m "sample"%string) by (apply means_name_fst; [exact Hm|reflexivity]).
    change (em_mean env R_ ms "sample" mkw) with (Ok (A := mean_out) (fst ms)). cbn [bind]. rewrite em_cov_unknown by exact H. reflexivity.
Qed.
Print Assumptions estimator_names.

(** * Every covariance is symmetric and positive semidefinite up to 1e-8 *)
Lemma np_cov0_psd T N X : (1 <= T)%nat -> psd N (np_cov T X 0).
Proof.
  intros HT x. unfold np_cov. rewrite (quad_ext N _ (fun i j => / INR T * sumn T (fun t => center T X t i * center T X t j)) x x); auto.
  - rewrite quad_scale. pose proof (gram_psd N T (fun i t => center T X t i) x) as H. cbv beta in H.
    apply Rmult_le_pos; [apply Rlt_le, Rinv_0_lt_compat, lt_0_INR; lia|exact H].
  - intros i j _ _. rewrite Nat.sub_0_r. unfold Rdiv. ring.
Qed.
Lemma psd_psd_tol N A : psd N A -> psd_tol N A jit.
Proof. intros H x. specialize (H x). pose proof (dot_self_nonneg N x). pose proof jit_pos. nra. Qed.
Lemma ensure_psd_good eig n A P : correct_eig eig -> (0 < n)%nat -> ensure_psd eig n A jit = Ok P -> symmetric n P /\ psd_tol n P jit.
Proof. intros HE Hn E. destruct (ensure_psd_ok eig n A jit HE Hn jit_pos) as (P' & k & E' & _ & _ & HS & Ht & _). rewrite E in E'. injection E' as <-. auto. Qed.

Lemma em_sample_good R_ p mu Sg : (2 <= fr_N R_)%nat -> (1 <= fr_T R_)%nat -> (forall w, p = Some w -> is_prob (fr_T R_) (wt_at w)) ->
  em_sample R_ p = Ok (mu, Sg) -> exists m, snd Sg = Square m /\ symmetric (fr_N R_) m /\ psd (fr_N R_) m.
Proof.
  intros HN HT Hp H. unfold em_sample in H. destruct p as [w|].
  - apply bind_ok in H as ([[a b] l] & E & H). injection H as <- <-. exists b. split; [reflexivity|].
    destruct (sample_moments_correct _ _ _ _ _ _ _ _ _ _ E) as (_ & _ & _ & _ & _ & H1 & H2). split; [exact H1|]. apply H2. apply Hp. reflexivity.
  - apply bind_ok in H as (l & _ & H). apply bind_ok in H as (l' & _ & H). destruct (Nat.eqb_spec (fr_N R_) 1); [lia|]. injection H as <- <-.
    exists (np_cov (fr_T R_) (fr_at R_) 0). split; [reflexivity|]. split; [intros i j _ _; apply np_cov_sym|apply np_cov0_psd; exact HT].
Qed.

Theorem estimate_moments_cov_psd :
  forall env R_ p m c mkw ckw mu Sg,
    exact_gl_env (em_gl env) -> (2 <= fr_N R_)%nat -> (1 <= fr_T R_)%nat ->
    (forall w, p = Some w -> is_prob (fr_T R_) (wt_at w)) ->
    (means_name cov_groups "ewma" c -> forall v, kw_find ckw "span" = Some v -> exists x, num_of v = Ok x /\ 1 <= x) ->
    (means_name cov_groups "tyler" c -> kw_find ckw "ensure_psd" = None) ->
    estimate_moments_full env R_ p m c mkw ckw = Ok (mu, Sg) ->
    exists S, snd Sg = Square S /\ symmetric (fr_N R_) S /\ psd_tol (fr_N R_) S jit.
Proof.
  intros env R_ p m c mkw ckw mu Sg HX HN HT Hp Hew Hty H. unfold estimate_moments_full in H.
  destruct (Nat.eqb_spec (fr_ndim R_) 2) as [Hd|]; [|discriminate]. cbn [negb] in H.
  apply bind_ok in H as ([mu0 S0] & E0 & H). apply bind_ok in H as (mu' & E1 & H). apply bind_ok in H as (Sg' & E2 & H). injection H as <- <-.
  destruct (em_sample_good _ _ _ _ HN HT Hp E0) as (m0 & Em & Hsym & Hpsd). cbn [snd] in E2.
  assert (HE : correct_eig (ge_eig (em_gl env))) by apply HX. assert (HN0 : (0 < fr_N R_)%nat) by lia.
  destruct (em_cov_cases _ _ _ _ _ _ E2) as (e & Hn & He & Hc). destruct Hc.
  - exists m0. split; [exact Em|]. split; [exact Hsym|apply psd_psd_tol; exact Hpsd].
  - rewrite Em in H. injection H as ->. exists m1. split; [reflexivity|]. unfold shrink_covariance_ledoit_wolf in H1.
    destruct (_ || _)%bool; [discriminate|]. destruct tg; [| |discriminate];
      (destruct (lw_delta _ _ _ _ _) as [dl|]; [|discriminate]; apply bind_ok in H1 as (P & EP & H1); injection H1 as <-;
       destruct (ensure_psd_good _ _ _ _ HE HN0 EP) as (_ & Q2); split; [apply symmetrise_sym|intros x; rewrite quad_symmetrise; apply Q2]).
  - exists m1. split; [reflexivity|]. unfold shrink_covariance_oas in H0. destruct (_ || _)%bool; [discriminate|]. destruct (Nat.eqb_spec (fr_N R_) 1); [lia|].
    apply (ensure_psd_good _ _ _ _ HE HN0 H0).
  - exists m1. split; [reflexivity|]. apply (ensure_psd_good _ _ _ _ HE HN0 H1).
  - exists m1. split; [reflexivity|]. unfold poet_full in H1. destruct (Nat.leb_spec (fr_N R_) 1); [discriminate|]. destruct (ge_eigh _ _ _) as [[d Q]|]; [|discriminate].
    cbv zeta in H1. apply bind_ok in H1 as (k0 & _ & H1). apply bind_ok in H1 as (tau & _ & H1). apply bind_ok in H1 as (P & EP & H1). injection H1 as <- _ _ _.
    apply (ensure_psd_good _ _ _ _ HE HN0 EP).
  - exists m1. split; [reflexivity|]. unfold get in H. rewrite (Hty Hn) in H. injection H as <-. unfold robust_covariance_tyler in H0.
    destruct (_ || _)%bool; [discriminate|]. destruct (negb _); [discriminate|]. destruct (_ || _)%bool; [discriminate|].
    apply bind_ok in H0 as (Sc & _ & H0). apply bind_ok in H0 as (tg' & _ & H0). cbv zeta in H0. destruct (mi =? 0)%nat; [discriminate|].
    apply (ensure_psd_good _ _ _ _ HE HN0 H0).
  - exists m1. split; [reflexivity|]. rewrite Hd in H. destruct (glasso_inverse_pair _ _ _ _ _ _ _ _ HX HN0 H) as (G1 & _ & G2 & _).
    split; [exact G1|]. apply psd_psd_tol, pd_psd. exact G2.
  - exists m1. split; [reflexivity|].
    assert (Hs : 1 <= span). { unfold get in H. destruct (kw_find ckw "span") as [v|] eqn:Ev; [|injection H as <-; lra]. destruct (Hew Hn v eq_refl) as (x & Ex & Hx). rewrite Ex in H. injection H as <-. exact Hx. }
    destruct (ewma_is_weighted_covariance _ _ _ _ _ _ Hs H0) as (w & Hw & _ & Hq & _). split.
    + unfold covariance_ewma in H0. destruct (_ <? _)%Z; [discriminate|]. destruct (Reqb _ 0); [discriminate|]. destruct (fr_T R_); [discriminate|]. injection H0 as <-. apply symmetrise_sym.
    + apply psd_psd_tol. intros x. rewrite Hq. apply sumn_nonneg. intros t _. apply Rmult_le_pos; [apply Hw|apply pow2_ge_0].
Qed.
Print Assumptions estimate_moments_cov_psd.

(** * The mean does not depend on the covariance choice and conversely; who uses the probabilities *)
Theorem estimate_moments_choices_independent :
  forall env R_ p m m' c c' mkw mkw' ckw ckw' mu mu' Sg Sg',
    estimate_moments_full env R_ p m c mkw ckw = Ok (mu, Sg) ->
    estimate_moments_full env R_ p m' c' mkw' ckw' = Ok (mu', Sg') ->
    (estimate_moments_full env R_ p m c' mkw ckw' = Ok (mu, Sg')) /\
    (estimate_moments_full env R_ p m' c mkw' ckw = Ok (mu', Sg)).
Proof.
  intros env R_ p m m' c c' mkw mkw' ckw ckw' mu mu' Sg Sg' H H'. unfold estimate_moments_full in *. destruct (negb _); [discriminate|].
  apply bind_ok in H as (ms & E0 & H). rewrite E0 in *. cbn [bind] in *. apply bind_ok in H as (a & E1 & H). apply bind_ok in H as (b & E2 & H). injection H as <- <-.
  apply bind_ok in H' as (a' & E1' & H'). apply bind_ok in H' as (b' & E2' & H'). injection H' as <- <-. rewrite E1, E1', E2, E2'. cbn [bind]. auto.
Qed.
Print Assumptions estimate_moments_choices_independent.

Theorem estimate_moments_ignored_probabilities_refuted :
  forall env R_ p p' m c mkw ckw r r',
    means_name mean_groups "huber" m \/ means_name mean_groups "mom" m ->
    ~ means_name cov_groups "sample" c -> ~ means_name cov_groups "lw" c ->
    estimate_moments_full env R_ p m c mkw ckw = Ok r -> estimate_moments_full env R_ p' m c mkw ckw = Ok r' -> r = r'.
Proof.
  intros env R_ p p' m c mkw ckw r r' Hm H1 H2 H H'. unfold estimate_moments_full in *. destruct (negb _); [discriminate|].
  apply bind_ok in H as (ms & _ & H). apply bind_ok in H as (mu & E1 & H). apply bind_ok in H as (Sg & E2 & H). injection H as <-.
  apply bind_ok in H' as (ms' & _ & H'). apply bind_ok in H' as (mu' & E1' & H'). apply bind_ok in H' as (Sg' & E2' & H'). injection H' as <-.
  assert (mu = mu').
  { destruct Hm as [Hm|Hm]; apply means_name_fst in Hm; try reflexivity; rewrite (em_mean_alias _ _ _ _ _ _ Hm) in E1; rewrite (em_mean_alias _ _ _ _ _ _ Hm) in E1'.
    - change (em_huber R_ mkw = Ok mu) in E1. change (em_huber R_ mkw = Ok mu') in E1'. congruence.
    - change (em_mom env R_ mkw = Ok mu) in E1. change (em_mom env R_ mkw = Ok mu') in E1'. congruence. }
  assert (Sg = Sg').
  { unfold em_cov in E2, E2'.
    assert (HA : SpecModel.one_of (SpecModel.lower c) ["sample"; "empirical"]%string = false) by (apply one_of_out; intros Hin; apply H1; eexists; split; [left; reflexivity|split; [left; reflexivity|exact Hin]]).
    assert (HB : SpecModel.one_of (SpecModel.lower c) ["ledoit_wolf"; "lw"]%string = false) by (apply one_of_out; intros Hin; apply H2; eexists; split; [right; left; reflexivity|split; [right; left; reflexivity|exact Hin]]).
    rewrite HA, HB in E2, E2'. cbv iota in E2, E2'. congruence. }
  subst. reflexivity.
Qed.
Print Assumptions estimate_moments_ignored_probabilities_refuted.

(** * Without probabilities every estimator behaves as with uniform ones *)
Theorem estimate_moments_default_uniform :
  forall env R_ m c mkw ckw, fr_N R_ <> 1%nat -> (1 <= fr_T R_)%nat ->
    estimate_moments_full env R_ None m c mkw ckw =
    estimate_moments_full env R_ (Some (mkWt (fr_T R_) (fun _ => / INR (fr_T R_)) Arr)) m c mkw ckw.
Proof.
  intros env R_ m c mkw ckw HN HT. unfold estimate_moments_full. destruct (negb _); [reflexivity|].
  assert (E : em_sample R_ None = em_sample R_ (Some (mkWt (fr_T R_) (fun _ => / INR (fr_T R_)) Arr))); [|rewrite E; reflexivity].
  assert (HI : INR (fr_T R_) <> 0) by (apply not_0_INR; lia).
  set (u := fun _ : nat => / INR (fr_T R_)).
  assert (HP : is_prob (fr_T R_) u). { split; [intros; unfold u; left; apply Rinv_0_lt_compat, lt_0_INR; lia|]. unfold u. rewrite sumn_const. field. exact HI. }
  assert (Em : (fun i => sumn (fr_T R_) (fun t => fr_at R_ t i) / INR (fr_T R_)) = wmean (fr_T R_) u (fr_at R_)).
  { extensionality i. unfold wmean, u. rewrite sumn_scale_r. reflexivity. }
  assert (ES : np_cov (fr_T R_) (fr_at R_) 0 = wcov (fr_T R_) u (fr_at R_)).
  { extensionality i. extensionality j. unfold wcov, symmetrise. rewrite <- Em. unfold np_cov, center, u. rewrite Nat.sub_0_r, !sumn_scale_r.
    rewrite (sumn_ext (fr_T R_) (fun t => (fr_at R_ t j - _) * (fr_at R_ t i - _)) (fun t => (fr_at R_ t i - sumn (fr_T R_) (fun u => fr_at R_ u i) / INR (fr_T R_)) * (fr_at R_ t j - sumn (fr_T R_) (fun u => fr_at R_ u j) / INR (fr_T R_)))) by (intros; ring).
    unfold Rdiv. lra. }
  unfold em_sample. cbn [wt_n wt_at wt_lab]. fold u.
  pose proof (sample_moments_total (fr_T R_) (fr_N R_) (fr_at R_) u HP) as Tot.
  unfold estimate_sample_moments in *. destruct (negb _); [discriminate|]. destruct (negb _); [discriminate|].
  destruct (Nat.eqb_spec (fr_N R_) 1); [congruence|]. rewrite <- Em, <- ES. unfold labels. destruct (fr_lab R_); cbn [labels_from bind wrap_labels]; [reflexivity|].
  destruct (_ =? _)%nat; reflexivity.
Qed.
Print Assumptions estimate_moments_default_uniform.

(** * Labels *)
Theorem estimate_moments_labels :
  forall env R_ p m c mkw ckw mu Sg cols,
    fr_lab R_ = Labelled cols -> estimate_moments_full env R_ p m c mkw ckw = Ok (mu, Sg) ->
    fst mu = Some cols /\ fst Sg = Some cols /\ List.length cols = fr_N R_.
Proof.
  intros env R_ p m c mkw ckw mu Sg cols HL H. unfold estimate_moments_full in H. destruct (negb _); [discriminate|].
  apply bind_ok in H as ([mu0 S0] & E0 & H). apply bind_ok in H as (mu' & E1 & H). apply bind_ok in H as (Sg' & E2 & H). injection H as <- <-. cbn [snd] in E2.
  assert (HS : fst mu0 = Some cols /\ fst S0 = Some cols /\ List.length cols = fr_N R_).
  { unfold em_sample in E0. rewrite HL in E0. destruct p as [w|].
    - apply bind_ok in E0 as ([[a b] l] & E & H). injection H as <- <-. unfold estimate_sample_moments in E. destruct (negb _); [discriminate|]. destruct (negb _); [discriminate|].
      apply bind_ok in E as (l1 & El & E). apply bind_ok in E as (l2 & Ew & E). injection E as <- <- <-.
      assert (l1 = Some cols). { unfold labels in El. cbn [labels_from] in El. destruct (wt_lab w); cbn [labels_from] in El; [congruence|]. destruct (_ && _)%bool; congruence. }
      subst l1. unfold wrap_labels in Ew. destruct (Nat.eqb_spec (List.length cols) (fr_N R_)); [|discriminate]. injection Ew as <-. auto.
    - unfold labels in E0. cbn [labels_from bind wrap_labels] in E0. destruct (Nat.eqb_spec (List.length cols) (fr_N R_)); [|discriminate]. cbn [bind] in E0.
      destruct (fr_N R_ =? 1)%nat; [discriminate|]. injection E0 as <- <-. auto. }
  destruct HS as (A1 & A2 & A3). split; [|split; [|exact A3]].
  - unfold em_mean in E1. cbn [fst snd] in E1. rewrite A1 in E1.
    destruct (SpecModel.one_of _ _). { injection E1 as <-. exact A1. }
    destruct (SpecModel.one_of _ _). { apply bind_ok in E1 as (? & _ & E1). destruct (snd S0); [discriminate|]. apply bind_ok in E1 as (? & _ & E1). injection E1 as <-. reflexivity. }
    destruct (SpecModel.one_of _ _). { apply bind_ok in E1 as (? & _ & E1). destruct (snd S0); [discriminate|]. apply bind_ok in E1 as (? & _ & E1). apply bind_ok in E1 as (? & _ & E1). injection E1 as <-. reflexivity. }
    destruct (SpecModel.one_of _ _). { unfold em_huber in E1. do 4 (apply bind_ok in E1 as (? & _ & E1)). destruct (negb _); [discriminate|]. rewrite HL in E1. unfold labels in E1. cbn [labels_from bind wrap_labels] in E1.
      destruct (_ =? _)%nat; [|discriminate]. injection E1 as <-. reflexivity. }
    destruct (SpecModel.one_of _ _); [|discriminate]. unfold em_mom in E1. do 3 (apply bind_ok in E1 as (? & _ & E1)). rewrite HL in E1. unfold labels in E1. cbn [labels_from bind wrap_labels] in E1.
      destruct (_ =? _)%nat; [|discriminate]. injection E1 as <-. reflexivity.
  - assert (HQ : forall l, labels [fr_lab R_] = Ok l -> l = Some cols) by (rewrite HL; intros l E; cbv in E; congruence).
    destruct (em_cov_cases _ _ _ _ _ _ E2) as (e & _ & _ & Hc). destruct Hc; cbn [fst]; auto.
    rewrite HL, A2 in H2. unfold labels in H2. cbn [labels_from obj_of] in H2. destruct (_ && _)%bool; congruence.
Qed.
Print Assumptions estimate_moments_labels.

(** Finding: a labelled table with one column is refused, whatever the estimators, unless probabilities are given. *)
Theorem estimate_moments_single_asset_refuted :
  forall env R_ m c mkw ckw name, fr_lab R_ = Labelled [name] -> fr_N R_ = 1%nat ->
    estimate_moments_full env R_ None m c mkw ckw = Err ValueError /\
    (fr_ndim R_ = 2%nat -> forall w, wt_n w = fr_T R_ -> is_prob (fr_T R_) (wt_at w) -> wt_lab w = Arr ->
       exists r, estimate_moments_full env R_ (Some w) "sample" "sample" mkw ckw = Ok r).
Proof.
  intros env R_ m c mkw ckw name HL HN. unfold estimate_moments_full. split.
  - destruct (negb _); [reflexivity|]. unfold em_sample. rewrite HL, HN. reflexivity.
  - intros -> w Hn Hp Hw. cbn [Nat.eqb negb]. pose proof (sample_moments_total (fr_T R_) (fr_N R_) (fr_at R_) (wt_at w) Hp) as Tot.
    unfold em_sample, estimate_sample_moments in *. rewrite Hn, Nat.eqb_refl in *. cbn [negb] in *. destruct (negb _); [discriminate|].
    rewrite HL, HN, Hw. unfold labels. cbn. eexists. reflexivity.
Qed.
Print Assumptions estimate_moments_single_asset_refuted.
