(** The Bayesian posterior: C37, C75-C78. *)
From Coq Require Import Psatz ZArith.
From Verif Require Import RBase QpBase OptModel OptSpec OptProofs3 OptProofs6 OptProofs7 OptProofs8 ExistSpec ExistProperties NiwModel NiwSpec NiwProofs NiwProofs2.
From Verif Require ProjModel ConvModel.
Open Scope R_scope.
Open Scope list_scope.

(** ** C37: the conjugate update *)
(** Whole-number counts add; the posterior mean is the average of prior and sample mean weighted by the
    counts; the posterior scale is the weighted average of the scales plus the spread between the two
    means, positive semidefinite when both inputs are, and always within 1e-7 of it. *)
Theorem niw_posterior :
  forall chol mu sg t0 nu0 smu ssg n o o' p, exact_chol chol ->
    niw_init chol mu sg (INR t0) (INR nu0) = Ok o -> niw_update chol o smu ssg (INR n) = Ok (o', p) ->
    let N := v_n mu in let m1 := snd (mu1 p) in let S1 := snd (sigma1 p) in
    (0 < t0)%nat /\ (0 < n)%nat /\ T1 p = INR (t0 + n) /\ nu1 p = INR (nu0 + n) /\
    (forall i, (i < N)%nat -> m1 i = (INR t0 * v_at mu i + INR n * v_at smu i) / INR (t0 + n)) /\
    (forall i j, (i < N)%nat -> (j < N)%nat ->
       INR (nu0 + n) * S1 i j = INR nu0 * m_at sg i j + INR n * m_at ssg i j
         + INR t0 * INR n / INR (t0 + n) * ((v_at mu i - v_at smu i) * (v_at mu j - v_at smu j))) /\
    nearly_psd N S1 (1 / 10000000) /\
    (psd N (m_at sg) -> psd N (m_at ssg) -> psd N S1) /\
    (symmetric N (m_at sg) -> symmetric N (m_at ssg) -> symmetric N S1).
Proof.
  intros chol mu sg t0 nu0 smu ssg n o o' p Hc Hi Hu N m1 S1.
  apply niw_init_ok in Hi as (_ & _ & Ht & _ & _ & _ & _ & _ & ix & _ & ->). rewrite !trunc_INR in Hu.
  apply niw_update_ok in Hu as (_ & _ & _ & Hn & _ & _ & _ & _ & _ & _ & [L HL] & Hp & _).
  set (o := Niw (v_n mu) (v_at mu) (m_at sg) (Z.of_nat t0) (Z.of_nat nu0) ix None) in *.
  assert (E1 : IZR (w_t0 o) = INR t0) by apply IZR_nat. assert (E2 : IZR (w_nu0 o) = INR nu0) by apply IZR_nat.
  pose proof (pos_INR nu0) as Hnu.
  subst m1 S1 p. cbn [T1 nu1 mu1 sigma1 fst snd].
  split; [apply INR_lt; exact Ht|]. split; [apply INR_lt; exact Hn|]. split; [rewrite plus_INR, E1; reflexivity|]. split; [rewrite plus_INR, E2; reflexivity|].
  split; [intros i _; unfold post_mu; rewrite E1, plus_INR; reflexivity|].
  split; [intros i j _ _; unfold post_sigma; rewrite E1, E2, !plus_INR; simpl; field; repeat split; lra|].
  split; [apply (cholesky_near chol N _ L Hc HL)|].
  split; [intros; apply post_sigma_psd; rewrite ?E1, ?E2; auto|].
  intros Hs Hs' i j Hi Hj. unfold post_sigma. rewrite (Hs' i j Hi Hj). cbn [w_sigma o]. rewrite (Hs i j Hi Hj).
  rewrite (Rmult_comm (w_mu o i - v_at smu i)). reflexivity.
Qed.
Print Assumptions niw_posterior.

(** Valid whole-number inputs with positive semidefinite matrices are always answered, whatever the
    labels of the sample. *)
Theorem niw_answers :
  forall chol lab slab slab' N mu C t0 nu0 smu S' n, complete_chol chol -> (0 < N)%nat -> (0 < t0)%nat -> (0 < n)%nat ->
    psd N C -> psd N S' ->
    exists o o' p, niw_init chol (VIn lab 1 N mu) (MIn (sq lab) 2 N N C) (INR t0) (INR nu0) = Ok o /\ is_updated o = false /\
      niw_update chol o (VIn slab 1 N smu) (MIn slab' 2 N N S') (INR n) = Ok (o', p) /\ is_updated o' = true /\
      fst (mu1 p) = lab /\ fst (sigma1 p) = lab.
Proof.
  intros chol lab slab slab' N mu C t0 nu0 smu S' n Hc HN Ht Hn HC HS. apply lt_0_INR in Hn as Hn'. apply lt_0_INR in Ht as Ht'.
  pose proof (niw_init_total chol lab N mu C (INR t0) (INR nu0) Hc HN HC Ht' (pos_INR _)) as Hi. rewrite !trunc_INR in Hi.
  destruct (niw_update_total chol (Niw N mu C (Z.of_nat t0) (Z.of_nat nu0) lab None) (VIn slab 1 N smu) (MIn slab' 2 N N S') (INR n)) as (o' & p & Hu); auto; simpl; try lia.
  eexists _, o', p. split; [exact Hi|]. split; [reflexivity|]. split; [exact Hu|].
  apply niw_update_ok in Hu as (_ & _ & _ & _ & _ & _ & _ & _ & _ & _ & _ & -> & ->). auto.
Qed.
Print Assumptions niw_answers.

(** However the data are cut into batches, feeding them one after the other (each posterior becoming the
    next prior) gives the posterior of the whole sample at once. *)
Theorem niw_batches :
  forall chol lab N mu C t0 nu0 X a sizes, complete_chol chol -> (0 < N)%nat -> (0 < t0)%nat -> psd N C ->
    sizes <> [] -> (forall n, In n sizes -> (0 < n)%nat) ->
    exists p q, absorb chol lab N mu C (INR t0) (INR nu0) X a sizes = Ok p /\
      absorb chol lab N mu C (INR t0) (INR nu0) X a [total sizes] = Ok q /\ same_posterior N p q.
Proof. intros. apply absorb_pool; auto. Qed.
Print Assumptions niw_batches.

(** The documented sample statistic is a covariance; with the unbiased one (numpy's and pandas' default)
    batching changes the posterior. *)
Theorem niw_unbiased_batches_refuted :
  exists X, forall chol p1 p2 q o o1 o2 o3 o4, exact_chol chol ->
    let upd o a n := niw_update chol o (VIn None 1 1 (data_mean X a n)) (MIn None 2 1 1 (data_cov_unbiased X a n)) (INR n) in
    niw_init chol (VIn None 1 1 (fun _ => 1)) (MIn None 2 1 1 (fun _ _ => 1)) (INR 1) (INR 1) = Ok o ->
    upd o 0%nat 2%nat = Ok (o1, p1) ->
    niw_init chol (VIn None 1 1 (snd (mu1 p1))) (MIn None 2 1 1 (snd (sigma1 p1))) (T1 p1) (nu1 p1) = Ok o2 ->
    upd o2 2%nat 2%nat = Ok (o3, p2) -> upd o 0%nat 4%nat = Ok (o4, q) ->
    snd (sigma1 p2) 0%nat 0%nat <> snd (sigma1 q) 0%nat 0%nat.
Proof.
  exists (fun t _ => if Nat.even t then 0 else 2). intros chol p1 p2 q o o1 o2 o3 o4 Hc upd Hi H1 Hi2 H2 H3.
  pose proof (niw_posterior _ _ _ _ _ _ _ _ _ _ _ Hc Hi H1) as (_ & _ & A3 & A4 & A5 & A6 & _).
  rewrite A3, A4 in Hi2.
  pose proof (niw_posterior _ _ _ _ _ _ _ _ _ _ _ Hc Hi2 H2) as (_ & _ & B3 & B4 & B5 & B6 & _).
  pose proof (niw_posterior _ _ _ _ _ _ _ _ _ _ _ Hc Hi H3) as (_ & _ & C3 & C4 & C5 & C6 & _).
  cbn [v_n v_at m_at] in *. specialize (A5 0%nat ltac:(lia)). specialize (A6 0%nat 0%nat ltac:(lia) ltac:(lia)).
  specialize (B6 0%nat 0%nat ltac:(lia) ltac:(lia)). specialize (C6 0%nat 0%nat ltac:(lia) ltac:(lia)).
  unfold data_cov_unbiased, data_scatter, data_mean in *. simpl in A5, A6, B6, C6. rewrite A5 in B6.
  intros E. rewrite E in B6. lra.
Qed.
Print Assumptions niw_unbiased_batches_refuted.

(** Whatever is called on an object, it is as constructed until the first update that succeeds, and
    from then on exactly what that update made of the fresh object. *)
Theorem niw_history :
  forall chol ppf cs o, is_updated o = false ->
    (run chol ppf o cs = o /\ (forall mu sg n o' p, In (CUpdate mu sg n) cs -> niw_update chol o mu sg n <> Ok (o', p))) \/
    exists pre mu sg n post o' p, cs = pre ++ CUpdate mu sg n :: post /\
      (forall mu sg n o' p, In (CUpdate mu sg n) pre -> niw_update chol o mu sg n <> Ok (o', p)) /\
      niw_update chol o mu sg n = Ok (o', p) /\ run chol ppf o cs = o'.
Proof. intros chol ppf cs o H. apply run_history. unfold is_updated in H. destruct (w_post o); congruence. Qed.
Print Assumptions niw_history.

(** Before an update every accessor raises RuntimeError; after one, every further update does. *)
Theorem niw_protocol :
  forall chol ppf o,
    (is_updated o = false -> get_mu_ce o = Err RuntimeError /\ get_S_mu o = Err RuntimeError /\ get_sigma_ce o = Err RuntimeError /\
       forall p, niw_radius_mu ppf o p = Err RuntimeError /\ niw_radius_sigma ppf o p = Err RuntimeError) /\
    (is_updated o = true -> forall mu sg n, niw_update chol o mu sg n = Err RuntimeError) /\
    (forall mu sg t0 nu0, niw_init chol mu sg t0 nu0 = Ok o -> is_updated o = false).
Proof.
  intros chol ppf o. unfold is_updated, get_mu_ce, get_S_mu, get_sigma_ce, niw_radius_mu, niw_radius_sigma, with_post, niw_update.
  split; [destruct (w_post o); [discriminate|]; intros _; repeat split; auto|].
  split; [destruct (w_post o); [reflexivity|discriminate]|].
  intros mu sg t0 nu0 H. apply niw_init_ok in H as (_ & _ & _ & _ & _ & _ & _ & _ & ix & _ & ->). reflexivity.
Qed.
Print Assumptions niw_protocol.

(** Malformed priors and samples are rejected with ValueError. *)
Theorem niw_rejects :
  forall chol mu sg t0 nu0,
    (v_nd mu <> 1%nat \/ v_n mu = 0%nat \/ m_nd sg <> 2%nat \/ m_rows sg <> v_n mu \/ m_cols sg <> v_n mu \/ t0 <= 0 \/ nu0 < 0 ->
     niw_init chol mu sg t0 nu0 = Err ValueError) /\
    (forall l ix cols, v_lab mu = Some l -> m_lab sg = Some (ix, cols) -> ix <> l \/ cols <> l -> niw_init chol mu sg t0 nu0 = Err ValueError) /\
    (forall o smu ssg n, is_updated o = false ->
       v_nd smu <> 1%nat \/ v_n smu <> w_N o \/ n <= 0 \/ m_nd ssg <> 2%nat \/ m_rows ssg <> w_N o \/ m_cols ssg <> w_N o ->
       niw_update chol o smu ssg n = Err ValueError).
Proof.
  intros chol mu sg t0 nu0.
  assert (P : forall ix, prior_index mu sg = Err ix -> ix = ValueError).
  { intros e. unfold prior_index. destruct (m_lab sg) as [[ix cols]|]; [|discriminate]. destruct (v_lab mu); [|discriminate]. destruct (_ && _); congruence. }
  split; [|split].
  - intros H. unfold niw_init. destruct (Nat.eqb_spec (v_nd mu) 1) as [E1|E1]; [|reflexivity]. destruct (Nat.eqb_spec (v_n mu) 0) as [E2|E2]; [reflexivity|]. cbn [guard negb].
    destruct (prior_index mu sg) as [ix|e] eqn:E; [|rewrite (P e eq_refl); reflexivity]. cbn [bind].
    destruct (Nat.eqb_spec (m_nd sg) 2) as [E3|E3]; [|reflexivity]. destruct (Nat.eqb_spec (m_rows sg) (v_n mu)) as [E4|E4]; [|reflexivity].
    destruct (Nat.eqb_spec (m_cols sg) (v_n mu)) as [E5|E5]; [|reflexivity]. cbn [andb guard].
    destruct (Rleb_spec t0 0) as [E6|E6]; [reflexivity|]. destruct (Rltb_spec nu0 0) as [E7|E7]; [reflexivity|].
    exfalso. destruct H as [H|[H|[H|[H|[H|[H|H]]]]]]; try contradiction; lra.
  - intros l ix cols Hl Hs Hne. unfold niw_init. destruct (_ =? 1)%nat; [|reflexivity]. destruct (negb _); [|reflexivity]. cbn [guard].
    unfold prior_index. rewrite Hl, Hs. unfold names_eqb. destruct (list_eq_dec string_dec ix l), (list_eq_dec string_dec cols l); try reflexivity. tauto.
  - intros o smu ssg n Ho H. unfold niw_update. unfold is_updated in Ho. destruct (w_post o); [discriminate|]. cbn [guard].
    destruct (Nat.eqb_spec (v_nd smu) 1) as [E1|E1]; [|reflexivity]. destruct (Nat.eqb_spec (v_n smu) (w_N o)) as [E2|E2]; [|reflexivity]. cbn [andb guard].
    destruct (Rleb_spec n 0) as [E3|E3]; [reflexivity|]. cbn [negb guard].
    destruct (Nat.eqb_spec (m_nd ssg) 2) as [E4|E4]; [|reflexivity]. destruct (Nat.eqb_spec (m_rows ssg) (w_N o)) as [E5|E5]; [|reflexivity].
    destruct (Nat.eqb_spec (m_cols ssg) (w_N o)) as [E6|E6]; [|reflexivity].
    exfalso. destruct H as [H|[H|[H|[H|[H|H]]]]]; try contradiction; lra.
Qed.
Print Assumptions niw_rejects.

(** A fractional prior count passes the documented check "must be > 0" but is truncated: one in (0, 1)
    becomes zero, and no update of that object ever returns. *)
Theorem niw_fractional_count_refuted :
  forall chol mu sg t0 nu0 o, 0 < t0 < 1 -> niw_init chol mu sg t0 nu0 = Ok o ->
    forall smu ssg n r, niw_update chol o smu ssg n <> Ok r.
Proof.
  intros chol mu sg t0 nu0 o Ht Hi smu ssg n [o' p] Hu. apply niw_init_ok in Hi as (_ & _ & _ & _ & _ & _ & _ & _ & ix & _ & ->).
  apply niw_update_ok in Hu as (_ & _ & _ & _ & _ & _ & _ & _ & Hz & _). apply Hz. cbn [w_t0].
  unfold ProjModel.trunc. destruct (Rleb_spec 0 t0); [|lra]. destruct (base_Int_part t0) as [E1 E2].
  assert (Int_part t0 < 1)%Z by (apply lt_IZR; lra). assert (-1 < Int_part t0)%Z by (apply lt_IZR; lra). lia.
Qed.
Print Assumptions niw_fractional_count_refuted.

(** ** C75: labels *)
(** Posterior mean and scale carry the labels of the prior, in the prior's order. *)
Theorem niw_labels :
  forall chol mu sg t0 nu0 smu ssg n o o' p, niw_init chol mu sg t0 nu0 = Ok o -> niw_update chol o smu ssg n = Ok (o', p) ->
    let expected := match v_lab mu, m_lab sg with Some l, _ => Some l | None, Some (ix, _) => Some ix | None, None => None end in
    fst (mu1 p) = expected /\ fst (sigma1 p) = expected /\
    (forall v, get_mu_ce o' = Ok v -> v = mu1 p) /\ (forall v, get_S_mu o' = Ok v -> fst v = expected) /\ (forall v, get_sigma_ce o' = Ok v -> fst v = expected).
Proof.
  intros chol mu sg t0 nu0 smu ssg n o o' p Hi Hu expected.
  apply niw_init_ok in Hi as (_ & _ & _ & _ & _ & _ & _ & _ & ix & Hx & ->).
  apply niw_update_ok in Hu as (_ & _ & _ & _ & _ & _ & _ & _ & _ & _ & _ & Hp & ->).
  assert (E : ix = expected).
  { unfold prior_index in Hx. unfold expected. destruct (m_lab sg) as [[i c]|]; destruct (v_lab mu) as [l|]; try (injection Hx as <-; reflexivity).
    destruct (_ && _); [injection Hx as <-; reflexivity|discriminate]. }
  rewrite Hp. cbn [mu1 sigma1 fst w_ix]. split; [exact E|]. split; [exact E|]. unfold get_mu_ce, get_S_mu, get_sigma_ce, with_post; cbn [w_post w_ix].
  split; [intros v H; injection H as <-; reflexivity|].
  split; intros v H; apply guard_ok in H as [_ H]; injection H as <-; exact E.
Qed.
Print Assumptions niw_labels.

(** The labels of the sample are ignored: reordering a labelled sample mean changes the posterior. *)
Theorem niw_sample_labels_refuted :
  exists mu C smu smu' S' , (forall i, v_at smu' i = v_at smu (1 - i)%nat) /\ v_lab smu = Some ["a"; "b"]%string /\ v_lab smu' = Some ["b"; "a"]%string /\
    forall chol, exact_chol chol -> complete_chol chol -> exists o o1 p o2 p', niw_init chol mu C 1 1 = Ok o /\ v_lab mu = Some ["a"; "b"]%string /\
      niw_update chol o smu S' 1 = Ok (o1, p) /\ niw_update chol o smu' S' 1 = Ok (o2, p') /\ snd (mu1 p) 0%nat <> snd (mu1 p') 0%nat.
Proof.
  set (l := Some ["a"; "b"]%string). set (z := MIn None 2 2 2 (fun _ _ => 0)).
  exists (VIn l 1 2 (fun _ => 0)), (MIn (sq l) 2 2 2 (fun _ _ => 0)), (VIn l 1 2 (fun i => INR i)), (VIn (Some ["b"; "a"]%string) 1 2 (fun i => INR (1 - i))), z.
  split; [reflexivity|]. split; [reflexivity|]. split; [reflexivity|]. intros chol He Hc.
  assert (Z : psd 2 (fun _ _ => 0)) by (intros x; unfold quad; simpl; lra).
  pose proof (niw_init_total chol l 2 (fun _ => 0) (fun _ _ => 0) (INR 1) (INR 1) Hc ltac:(lia) Z ltac:(simpl; lra) ltac:(simpl; lra)) as Hi.
  rewrite trunc_INR in Hi. simpl INR in Hi. set (o := Niw 2 (fun _ => 0) (fun _ _ => 0) (Z.of_nat 1) (Z.of_nat 1) l None) in *.
  destruct (niw_update_total chol o (VIn l 1 2 (fun i => INR i)) z 1) as (o1 & p & H1); auto; try (simpl; lia); try lra.
  destruct (niw_update_total chol o (VIn (Some ["b"; "a"]%string) 1 2 (fun i => INR (1 - i))) z 1) as (o2 & p' & H2); auto; try (simpl; lia); try lra.
  exists o, o1, p, o2, p'. split; [exact Hi|]. split; [reflexivity|]. split; [exact H1|]. split; [exact H2|].
  apply niw_update_ok in H1 as (_ & _ & _ & _ & _ & _ & _ & _ & _ & _ & _ & -> & _).
  apply niw_update_ok in H2 as (_ & _ & _ & _ & _ & _ & _ & _ & _ & _ & _ & -> & _).
  cbn [mu1 snd]. unfold post_mu. simpl. lra.
Qed.
Print Assumptions niw_sample_labels_refuted.

(** With an unlabelled prior mean, the columns of a prior DataFrame are not compared with its rows: the
    result relabels them. *)
Theorem niw_prior_columns_refuted :
  exists mu sg, m_lab sg = Some (["a"; "b"], ["b"; "a"])%string /\
    forall chol, complete_chol chol -> exists o o' p, niw_init chol mu sg 1 1 = Ok o /\
      niw_update chol o (VIn None 1 2 (fun _ => 0)) (MIn None 2 2 2 (fun _ _ => 0)) 1 = Ok (o', p) /\ fst (sigma1 p) = Some ["a"; "b"]%string.
Proof.
  exists (VIn None 1 2 (fun _ => 0)), (MIn (Some (["a"; "b"], ["b"; "a"])%string) 2 2 2 (fun _ _ => 0)). split; [reflexivity|]. intros chol Hc.
  assert (Z : psd 2 (fun _ _ => 0)) by (intros x; unfold quad; simpl; lra).
  set (o := Niw 2 (fun _ => 0) (fun _ _ => 0) (Z.of_nat 1) (Z.of_nat 1) (Some ["a"; "b"]%string) None).
  assert (Hi : niw_init chol (VIn None 1 2 (fun _ => 0)) (MIn (Some (["a"; "b"], ["b"; "a"])%string) 2 2 2 (fun _ _ => 0)) 1 1 = Ok o).
  { unfold niw_init. cbn [v_nd v_n v_at m_nd m_rows m_cols m_at guard Nat.eqb negb andb]. unfold prior_index. cbn [m_lab v_lab bind].
    destruct (Rleb_spec 1 0); [lra|]. destruct (Rltb_spec 1 0); [lra|]. cbn [negb guard].
    destruct (cholesky_pd_total chol 2 _ Hc Z) as [L ->]. cbn [bind]. change 1 with (INR 1). rewrite trunc_INR. reflexivity. }
  destruct (niw_update_total chol o (VIn None 1 2 (fun _ => 0)) (MIn None 2 2 2 (fun _ _ => 0)) 1) as (o' & p & Hu); auto; try (simpl; lia); try lra.
  exists o, o', p. split; [exact Hi|]. split; [exact Hu|].
  apply niw_update_ok in Hu as (_ & _ & _ & _ & _ & _ & _ & _ & _ & _ & _ & -> & _). reflexivity.
Qed.
Print Assumptions niw_prior_columns_refuted.

(** ** C76: credibility sets *)
(** The estimators: the posterior mean, the scale shrunk by [nu1 / (nu1 + N + 1)], and the covariance of the mean. *)
Theorem niw_estimators :
  forall chol mu sg t0 nu0 smu ssg n o o' p, niw_init chol mu sg (INR t0) (INR nu0) = Ok o -> niw_update chol o smu ssg (INR n) = Ok (o', p) ->
    let N := v_n mu in
    get_mu_ce o' = Ok (mu1 p) /\
    (exists C, get_sigma_ce o' = Ok C /\ forall i j, snd C i j = INR (nu0 + n) / INR (nu0 + n + N + 1) * snd (sigma1 p) i j) /\
    ((nu0 + n <= 2)%nat -> get_S_mu o' = Err ValueError) /\
    ((2 < nu0 + n)%nat -> exists C, get_S_mu o' = Ok C /\
       forall i j, INR (t0 + n) * snd C i j = INR (nu0 + n) / INR (nu0 + n - 2) * snd (sigma1 p) i j).
Proof.
  intros chol mu sg t0 nu0 smu ssg n o o' p Hi Hu N.
  apply niw_init_ok in Hi as (_ & _ & Ht & _ & _ & _ & _ & _ & ix & _ & ->). rewrite !trunc_INR in Hu.
  apply niw_update_ok in Hu as (_ & _ & _ & Hn & _ & _ & _ & _ & _ & _ & _ & Hp & ->).
  cbn [w_t0 w_nu0 w_ix w_N] in Hp. rewrite !IZR_nat, <- !plus_INR in Hp.
  assert (P : 0 < INR (nu0 + n)) by (rewrite plus_INR; pose proof (pos_INR nu0); lra).
  assert (P' : 0 < INR (t0 + n)) by (rewrite plus_INR; lra).
  assert (Q : INR (nu0 + n + N + 1) = INR (nu0 + n) + INR N + 1) by (rewrite !plus_INR; simpl; ring).
  unfold get_mu_ce, get_S_mu, get_sigma_ce, with_post. cbn [w_post w_ix w_N]. fold N. rewrite Hp. cbn [T1 nu1 mu1 sigma1 fst snd].
  split; [reflexivity|]. split.
  - destruct (Reqb_spec (INR (nu0 + n) + INR N + 1) 0) as [E|E]; [pose proof (pos_INR N); lra|]. cbn [negb guard]. eexists. split; [reflexivity|].
    intros i j. cbn [snd]. unfold mscale. rewrite Q. reflexivity.
  - split.
    + intros H. apply le_INR in H. simpl in H. destruct (Rleb_spec (INR (nu0 + n)) 2); [reflexivity|lra].
    + intros H. assert (H' := lt_INR _ _ H). simpl in H'. destruct (Rleb_spec (INR (nu0 + n)) 2); [lra|]. cbn [negb guard]. eexists. split; [reflexivity|].
      intros i j. cbn [snd]. unfold mscale. rewrite minus_INR by lia. simpl (INR 2). field. lra.
Qed.
Print Assumptions niw_estimators.

(** [cred_radius_mu] is the factor by which the posterior standard deviation is charged: over the
    ellipsoid of mean vectors with scatter [S_mu] and squared radius the chi-square quantile, the worst
    expected return of any portfolio [w] is [mu_1'w - gamma sqrt(w' Sigma_1 w)]. *)
Theorem niw_mean_radius :
  forall ppf o pm g p S_mu B w, w_post o = Some p -> 0 < T1 p -> 0 <= ppf pm (w_N o) ->
    niw_radius_mu ppf o pm = Ok g -> get_S_mu o = Ok S_mu ->
    psd (w_N o) (snd (sigma1 p)) ->
    (forall i j, (i < w_N o)%nat -> (j < w_N o)%nat -> mmul (w_N o) B (transpose B) i j = snd S_mu i j) ->
    0 < pm < 1 /\ 0 <= g /\
    worst_return (w_N o) (snd (mu1 p)) B (sqrt (ppf pm (w_N o))) w
      (dot (w_N o) (snd (mu1 p)) w - g * sqrt (quad (w_N o) (snd (sigma1 p)) w)).
Proof.
  intros ppf o pm g p S_mu B w Hp HT Hq Hg HS Hpsd HB. unfold niw_radius_mu, get_S_mu, with_post in *. rewrite Hp in *.
  apply guard_ok in Hg as [H1 Hg]. apply guard_ok in Hg as [H2 Hg]. unfold chi2_quantile in Hg. rewrite H2 in Hg. cbn [guard bind] in Hg. injection Hg as <-.
  apply guard_ok in HS as [_ HS]. injection HS as <-. apply Bool.negb_true_iff, Rleb_false in H1.
  apply andb_prop in H2 as [H2 H3]. apply Rltb_true in H2, H3.
  split; [lra|]. split; [apply sqrt_pos|].
  replace (sqrt (ppf pm (w_N o) / T1 p * (nu1 p / (nu1 p - 2))) * sqrt (quad (w_N o) (snd (sigma1 p)) w))
    with (sqrt (ppf pm (w_N o)) * norm2 (w_N o) (mv (w_N o) (transpose B) w)); [apply worst_return_l, sqrt_pos|].
  pose proof (quad_cholesky (w_N o) _ B w HB) as Q. unfold norm2. rewrite <- Q. cbn [snd]. unfold mscale. rewrite quad_scale.
  specialize (Hpsd w). assert (0 < / T1 p) by (apply Rinv_0_lt_compat; lra). assert (0 < / (nu1 p - 2)) by (apply Rinv_0_lt_compat; lra).
  assert (K : 0 <= nu1 p / (T1 p * (nu1 p - 2))).
  { unfold Rdiv. rewrite Rinv_mult. apply Rmult_le_pos; [lra|]. apply Rmult_le_pos; lra. }
  rewrite <- !sqrt_mult; auto.
  - f_equal. field. lra.
  - apply Rmult_le_pos; unfold Rdiv; apply Rmult_le_pos; lra.
  - apply Rmult_le_pos; auto.
Qed.
Print Assumptions niw_mean_radius.

(** [cred_radius_sigma_factor] is the factor by which the posterior variance is charged: over Meucci's
    ellipsoid of covariance matrices around the classical-equivalent estimate, with squared radius the
    chi-square quantile for [N(N+1)/2] degrees of freedom, the largest variance of any portfolio [w] is
    [C_Sigma * w' Sigma_1 w]. *)
Theorem niw_sigma_radius :
  forall ppf o ps c p Sce L w, w_post o = Some p -> 0 < nu1 p ->
    niw_radius_sigma ppf o ps = Ok c -> get_sigma_ce o = Ok Sce ->
    let N := w_N o in let dof := (N * (N + 1) / 2)%nat in let d := nu1 p + INR N + 1 in
    0 <= ppf ps dof ->
    (forall i j, (i < N)%nat -> (j < N)%nat -> mmul N L (transpose L) i j = snd (sigma1 p) i j) ->
    0 < ps < 1 /\ 0 <= c /\
    worst_variance N (snd Sce) L (sqrt (2 * nu1 p ^ 2 / d ^ 3 * ppf ps dof)) w (c * quad N (snd (sigma1 p)) w).
Proof.
  intros ppf o ps c p Sce L w Hp Hnu Hr HS N dof d Hq HL. unfold niw_radius_sigma, get_sigma_ce, with_post in *. rewrite Hp in *.
  apply guard_ok in Hr as [H1 Hr]. apply guard_ok in Hr as [H2 Hr]. unfold chi2_quantile in Hr. rewrite H1 in Hr. cbn [guard bind] in Hr.
  apply guard_ok in Hr as [H3 Hr]. apply guard_ok in HS as [_ HS]. injection HS as <-.
  apply andb_prop in H1 as [H1 H4]. apply Rltb_true in H1, H4. fold N in Hr, H3, H2. fold d in Hr, H3, H2. fold N. fold d.
  change (sigma_dof N) with dof in Hr.
  assert (Hd : 0 < d) by (unfold d; pose proof (pos_INR N); lra). assert (Hd3 : 0 < d ^ 3) by (apply pow_lt; auto).
  assert (Ha : 0 <= 2 * nu1 p ^ 2 * ppf ps dof / d ^ 3).
  { unfold Rdiv. apply Rmult_le_pos; [|apply Rlt_le, Rinv_0_lt_compat; auto]. apply Rmult_le_pos; auto. pose proof (pow2_ge_0 (nu1 p)). lra. }
  destruct (Rltb_spec (2 * nu1 p ^ 2 * ppf ps dof / d ^ 3) 0); [lra|]. injection Hr as <-.
  split; [lra|]. split; [apply Rplus_le_le_0_compat; [unfold Rdiv; apply Rmult_le_pos; [lra|apply Rlt_le, Rinv_0_lt_compat; auto]|apply sqrt_pos]|].
  replace (2 * nu1 p ^ 2 / d ^ 3 * ppf ps dof) with (2 * nu1 p ^ 2 * ppf ps dof / d ^ 3) by (field; lra).
  pose proof (worst_variance_l N (mscale (nu1 p / d) (snd (sigma1 p))) L (snd (sigma1 p)) (sqrt (2 * nu1 p ^ 2 * ppf ps dof / d ^ 3)) w (sqrt_pos _) HL) as W.
  cbn [snd]. rewrite Rmult_plus_distr_r. unfold mscale at 2 in W. rewrite quad_scale in W. exact W.
Qed.
Print Assumptions niw_sigma_radius.

(** Both radii grow with the confidence level (for a non-decreasing quantile), and are defined for every
    level strictly between 0 and 1 and no other. *)
Theorem niw_radii_levels :
  forall chol mu sg t0 nu0 smu ssg n o o' p ppf, niw_init chol mu sg t0 nu0 = Ok o -> niw_update chol o smu ssg n = Ok (o', p) ->
    (forall a b k, 0 < a -> a <= b -> b < 1 -> 0 <= ppf a k <= ppf b k) ->
    forall a, 
    ((exists g, niw_radius_mu ppf o' a = Ok g) <-> (0 < a < 1 /\ 2 < nu1 p)) /\
    ((exists c, niw_radius_sigma ppf o' a = Ok c) <-> 0 < a < 1) /\
    (~ (0 < a < 1) -> niw_radius_mu ppf o' a = Err ValueError /\ niw_radius_sigma ppf o' a = Err ValueError) /\
    (forall b g h, a <= b -> niw_radius_mu ppf o' a = Ok g -> niw_radius_mu ppf o' b = Ok h -> g <= h) /\
    (forall b g h, a <= b -> niw_radius_sigma ppf o' a = Ok g -> niw_radius_sigma ppf o' b = Ok h -> g <= h).
Proof.
  intros chol mu sg t0 nu0 smu ssg n o o' p ppf Hi Hu Hm a.
  apply niw_init_ok in Hi as (_ & _ & Ht & Hnu & _ & _ & _ & _ & ix & _ & ->).
  apply niw_update_ok in Hu as (_ & _ & _ & Hn & _ & _ & _ & _ & Hz & HN & _ & Hp & ->).
  assert (HT : 0 < T1 p).
  { rewrite Hp. cbn [T1 w_t0]. assert (0 <= ProjModel.trunc t0)%Z.
    { unfold ProjModel.trunc. destruct (Rleb_spec 0 t0); [|lra]. destruct (base_Int_part t0) as [E1 E2]. assert (-1 < Int_part t0)%Z by (apply lt_IZR; lra). lia. }
    apply IZR_le in H. lra. }
  assert (H1 : 0 < nu1 p) by (rewrite Hp; exact HN).
  assert (Hd : 0 < nu1 p + INR (v_n mu) + 1) by (pose proof (pos_INR (v_n mu)); lra).
  assert (Hd3 : 0 < (nu1 p + INR (v_n mu) + 1) ^ 3) by (apply pow_lt; auto).
  cbn [w_N w_mu w_sigma w_t0 w_nu0 w_ix].
  set (N := v_n mu) in *. clearbody N. clear - Hm HT H1 Hd Hd3.
  assert (RM : forall a, (0 < a < 1 /\ 2 < nu1 p -> niw_radius_mu ppf (Niw N (v_at mu) (m_at sg) (ProjModel.trunc t0) (ProjModel.trunc nu0) ix (Some p)) a = Ok (sqrt (ppf a N / T1 p * (nu1 p / (nu1 p - 2))))) /\
     (~ (0 < a < 1 /\ 2 < nu1 p) -> niw_radius_mu ppf (Niw N (v_at mu) (m_at sg) (ProjModel.trunc t0) (ProjModel.trunc nu0) ix (Some p)) a = Err ValueError)).
  { intros a'. unfold niw_radius_mu, with_post, chi2_quantile. cbn [w_post w_N].
    destruct (Rleb_spec (nu1 p) 2), (Rltb_spec 0 a'), (Rltb_spec a' 1); cbn [negb andb guard bind]; split; intros; try reflexivity; exfalso; try lra; apply H; lra. }
  assert (RS : forall a, (0 < a < 1 -> niw_radius_sigma ppf (Niw N (v_at mu) (m_at sg) (ProjModel.trunc t0) (ProjModel.trunc nu0) ix (Some p)) a =
      Ok (nu1 p / (nu1 p + INR N + 1) + sqrt (2 * nu1 p ^ 2 * ppf a (sigma_dof N) / (nu1 p + INR N + 1) ^ 3))) /\
     (~ (0 < a < 1) -> niw_radius_sigma ppf (Niw N (v_at mu) (m_at sg) (ProjModel.trunc t0) (ProjModel.trunc nu0) ix (Some p)) a = Err ValueError)).
  { intros a'. unfold niw_radius_sigma, with_post, chi2_quantile. cbn [w_post w_N].
    destruct (Rltb_spec 0 a'), (Rltb_spec a' 1); cbn [negb andb guard bind]; split; intros; try reflexivity; try (exfalso; lra); try (exfalso; apply H; lra).
    destruct (Rleb_spec (nu1 p + INR N + 1) 0); [lra|]. cbn [negb guard]. destruct (Reqb_spec ((nu1 p + INR N + 1) ^ 3) 0); [lra|]. cbn [negb guard].
    destruct (Rltb_spec (2 * nu1 p ^ 2 * ppf a' (sigma_dof N) / (nu1 p + INR N + 1) ^ 3) 0) as [Hl|Hl]; [|reflexivity]. exfalso.
    assert (0 <= 2 * nu1 p ^ 2 * ppf a' (sigma_dof N) / (nu1 p + INR N + 1) ^ 3); [|lra].
    unfold Rdiv. apply Rmult_le_pos; [|apply Rlt_le, Rinv_0_lt_compat; auto]. apply Rmult_le_pos; [pose proof (pow2_ge_0 (nu1 p)); lra|]. apply (Hm a' a'); lra. }
  split; [|split; [|split; [|split]]].
  - split.
    + intros [g Hg]. destruct (RM a) as [_ K]. destruct (Rlt_dec 0 a), (Rlt_dec a 1), (Rlt_dec 2 (nu1 p)); auto; rewrite K in Hg by lra; discriminate.
    + intros H. destruct (RM a) as [K _]. rewrite K; eauto.
  - split.
    + intros [g Hg]. destruct (RS a) as [_ K]. destruct (Rlt_dec 0 a), (Rlt_dec a 1); auto; rewrite K in Hg by lra; discriminate.
    + intros H. destruct (RS a) as [K _]. rewrite K; eauto.
  - intros H. split; [apply (proj2 (RM a)); lra|apply (proj2 (RS a)); lra].
  - intros b g h Hab Hg Hh.
    destruct (Rlt_dec 0 a), (Rlt_dec a 1), (Rlt_dec 2 (nu1 p)); try (rewrite (proj2 (RM a)) in Hg by lra; discriminate).
    destruct (Rlt_dec b 1); [|rewrite (proj2 (RM b)) in Hh by lra; discriminate].
    rewrite (proj1 (RM a)) in Hg by lra. rewrite (proj1 (RM b)) in Hh by lra. injection Hg as <-. injection Hh as <-.
    apply sqrt_le_1_alt. apply Rmult_le_compat_r; [unfold Rdiv; apply Rmult_le_pos; [lra|apply Rlt_le, Rinv_0_lt_compat; lra]|].
    unfold Rdiv. apply Rmult_le_compat_r; [apply Rlt_le, Rinv_0_lt_compat; lra|]. apply Hm; lra.
  - intros b g h Hab Hg Hh.
    destruct (Rlt_dec 0 a), (Rlt_dec a 1); try (rewrite (proj2 (RS a)) in Hg by lra; discriminate).
    destruct (Rlt_dec b 1); [|rewrite (proj2 (RS b)) in Hh by lra; discriminate].
    rewrite (proj1 (RS a)) in Hg by lra. rewrite (proj1 (RS b)) in Hh by lra. injection Hg as <-. injection Hh as <-.
    apply Rplus_le_compat_l. apply sqrt_le_1_alt. unfold Rdiv. apply Rmult_le_compat_r; [apply Rlt_le, Rinv_0_lt_compat; lra|].
    apply Rmult_le_compat_l; [pose proof (pow2_ge_0 (nu1 p)); lra|]. apply Hm; lra.
Qed.
Print Assumptions niw_radii_levels.

(** ** C77: the bundle *)
(** [from_niw] with whole-number counts gives exactly the quantities of the step-by-step route: same
    estimators, same radii, and [sigma1] recovers the posterior scale; it fails exactly when that route does. *)
Theorem bundle_agrees :
  forall chol ppf mu sg t0 nu0 smu ssg n o o' p, 
    niw_init chol mu sg (INR t0) (INR nu0) = Ok o -> niw_update chol o smu ssg (INR n) = Ok (o', p) ->
    ((nu0 + n <= 2)%nat -> from_niw chol mu sg (INR t0) (INR nu0) smu ssg (INR n) = Err ValueError) /\
    ((2 < nu0 + n)%nat -> exists b, from_niw chol mu sg (INR t0) (INR nu0) smu ssg (INR n) = Ok b /\
      get_mu_ce o' = Ok (b_mu b) /\ get_sigma_ce o' = Ok (b_sigma b) /\ get_S_mu o' = Ok (b_smu b) /\
      (exists S1, bundle_sigma1 b = Ok S1 /\ fst S1 = fst (sigma1 p) /\ forall i j, snd S1 i j = snd (sigma1 p) i j) /\
      (forall q, bundle_radius_mu ppf b q = niw_radius_mu ppf o' q) /\
      (forall q, bundle_radius_sigma ppf b q = niw_radius_sigma ppf o' q)).
Proof.
  intros chol ppf mu sg t0 nu0 smu ssg n o o' p Hi Hu. unfold from_niw. rewrite !trunc_INR, !IZR_nat, Hi. cbn [bind]. rewrite Hu. cbn [bind].
  destruct (niw_estimators _ _ _ _ _ _ _ _ _ _ _ Hi Hu) as (E1 & (C & E2 & E2') & E3 & E4).
  rewrite E1, E2. cbn [bind].
  apply niw_init_ok in Hi as (_ & _ & Ht & _ & _ & _ & _ & _ & ix & _ & ->). rewrite !trunc_INR in Hu.
  apply niw_update_ok in Hu as (_ & _ & _ & Hn & _ & _ & _ & _ & _ & _ & _ & Hp & ->).
  cbn [w_t0 w_nu0 w_ix w_N] in Hp. rewrite !IZR_nat, <- !plus_INR in Hp.
  assert (P : 0 < INR (nu0 + n)) by (rewrite plus_INR; pose proof (pos_INR nu0); lra).
  set (N := v_n mu) in *. pose proof (pos_INR N) as HN.
  split; [intros H; rewrite (E3 H); reflexivity|].
  intros H. destruct (E4 H) as (Sm & E5 & _). rewrite E5. cbn [bind]. eexists. split; [reflexivity|]. cbn [b_mu b_sigma b_smu].
  split; [reflexivity|]. split; [reflexivity|]. split; [reflexivity|].
  assert (Hnu : nu1 p = INR (nu0 + n)) by (rewrite Hp; reflexivity). assert (HT : T1 p = INR (t0 + n)) by (rewrite Hp; reflexivity).
  split; [|split].
  - unfold bundle_sigma1. cbn [b_nu1 b_N b_sigma w_N]. eexists. split; [reflexivity|]. cbn [fst snd].
    unfold get_sigma_ce, with_post in E2. cbn [w_post w_N w_ix] in E2. apply guard_ok in E2 as [_ E2]. injection E2 as <-. split.
    + cbn [fst]. rewrite Hp. reflexivity.
    + intros i j. cbn [snd]. unfold mscale. rewrite Hnu. field. split; lra.
  - intros q. unfold bundle_radius_mu, niw_radius_mu, with_post. cbn [b_nu1 b_N b_T1 w_post w_N]. rewrite Hnu, HT.
    assert (H' := lt_INR _ _ H). simpl INR in H' at 1. destruct (Rleb_spec (INR (nu0 + n)) 2); [lra|]. cbn [negb guard].
    unfold chi2_quantile. destruct (Rltb 0 q && Rltb q 1); reflexivity.
  - intros q. unfold bundle_radius_sigma, niw_radius_sigma, with_post. cbn [b_nu1 b_N b_T1 w_post w_N]. rewrite Hnu.
    unfold chi2_quantile. destruct (Rltb 0 q && Rltb q 1); [|reflexivity]. cbn [guard bind].
    destruct (Rleb_spec (INR (nu0 + n) + INR N + 1) 0); [lra|]. cbn [negb guard].
    destruct (Reqb_spec ((INR (nu0 + n) + INR N + 1) ^ 3) 0) as [E|E]; [|reflexivity]. exfalso. assert (0 < (INR (nu0 + n) + INR N + 1) ^ 3) by (apply pow_lt; lra). lra.
Qed.
Print Assumptions bundle_agrees.

(** ** C78: mean uncertainty in horizon and simple-return units *)
(** In log units the uncertainty scales with the square of the horizon; in simple units it is the
    delta-method image: each asset is scaled by the derivative of [exp(m) - 1] at the horizon mean; both stay
    positive semidefinite.  With [exact] and a unit horizon the scale is one plus the exact
    (lognormal) expected simple return. *)
Theorem mean_uncertainty_units :
  forall b h N w,
    quad N (snd (uncertainty_log b h)) w = h ^ 2 * quad N (snd (b_smu b)) w /\
    (forall e, quad N (snd (uncertainty_simple b h e)) w = h ^ 2 * quad N (snd (b_smu b)) (fun i => simple_scale b h e i * w i)) /\
    (forall i, derivable_pt_lim (fun m => exp m - 1) (snd (b_mu b) i * h) (simple_scale b h false i)) /\
    (forall i, simple_scale b 1 true i = 1 + fst (ConvModel.log2simple (snd (b_mu b)) (snd (b_sigma b))) i) /\
    (psd N (snd (b_smu b)) -> psd N (snd (uncertainty_log b h)) /\ forall e, psd N (snd (uncertainty_simple b h e))) /\
    fst (uncertainty_log b h) = fst (b_smu b) /\ (forall e, fst (uncertainty_simple b h e) = fst (b_smu b)).
Proof.
  intros b h N w.
  assert (A : forall w, quad N (snd (uncertainty_log b h)) w = h ^ 2 * quad N (snd (b_smu b)) w).
  { intros x. rewrite <- quad_scale. apply quad_ext; auto. intros; unfold uncertainty_log; simpl; ring. }
  assert (B : forall e w, quad N (snd (uncertainty_simple b h e)) w = h ^ 2 * quad N (snd (b_smu b)) (fun i => simple_scale b h e i * w i)).
  { intros e x. unfold quad. rewrite <- sumn_scale. apply sumn_ext. intros i Hi. rewrite <- sumn_scale. apply sumn_ext. intros j Hj. unfold uncertainty_simple; cbn [snd]. ring. }
  split; [apply A|]. split; [intros; apply B|]. split; [|split; [|split; [|split; reflexivity]]].
  - intros i. unfold simple_scale. replace (exp (snd (b_mu b) i * h)) with (exp (snd (b_mu b) i * h) - 0) by ring.
    apply derivable_pt_lim_minus; [apply derivable_pt_lim_exp|apply derivable_pt_lim_const].
  - intros i. unfold simple_scale, ConvModel.log2simple. cbn [fst]. rewrite Rmult_1_r. replace (snd (b_sigma b) i i * 1 ^ 2) with (snd (b_sigma b) i i) by ring. ring.
  - intros H. pose proof (pow2_ge_0 h). split; [intros x; rewrite A|intros e x; rewrite B]; apply Rmult_le_pos; auto.
Qed.
Print Assumptions mean_uncertainty_units.

(** For another horizon the [exact] scale is not one plus the expected simple return over that horizon:
    it multiplies the covariance by the square of the horizon, where projecting the moments multiplies by the horizon. *)
Theorem mean_uncertainty_exact_refuted :
  forall b h i, 0 < snd (b_sigma b) i i -> 1 < h ->
    let (m, C) := ConvModel.project_mean_covariance (snd (b_mu b)) (snd (b_sigma b)) h in
    1 + fst (ConvModel.log2simple m C) i < simple_scale b h true i.
Proof.
  intros b h i Hs Hh. unfold ConvModel.project_mean_covariance, ConvModel.log2simple, simple_scale; cbn [fst].
  replace (1 + (exp (snd (b_mu b) i * h + 1 / 2 * (snd (b_sigma b) i i * h)) - 1)) with (exp (snd (b_mu b) i * h + 1 / 2 * (snd (b_sigma b) i i * h))) by ring.
  apply exp_increasing. apply Rplus_lt_compat_l. assert (h < h ^ 2) by nra. nra.
Qed.
Print Assumptions mean_uncertainty_exact_refuted.

(** ** A concrete case *)
Definition pm2 : vec := of_list [1 / 10; 1 / 5].
Example niw_case : exists o o' p, niw_init best_chol (VIn (Some ["x"; "y"]%string) 1 2 pm2) (MIn (Some (["x"; "y"], ["x"; "y"])%string) 2 2 2 id2) (INR 4) (INR 4) = Ok o /\
  niw_update best_chol o (VIn None 1 2 (fun _ => 0)) (MIn None 2 2 2 id2) (INR 12) = Ok (o', p) /\ snd (mu1 p) 0%nat = 1 / 40 /\ nu1 p = 16.
Proof.
  assert (Hid : psd 2 id2) by (intros x; unfold quad, id2; simpl; unfold delta; simpl; nra).
  destruct (niw_answers best_chol (Some ["x"; "y"]%string) None None 2 pm2 id2 4 4 (fun _ => 0) id2 12 best_chol_complete) as (o & o' & p & A1 & _ & A2 & _); try lia; auto.
  exists o, o', p. split; [exact A1|]. split; [exact A2|].
  destruct (niw_posterior _ _ _ _ _ _ _ _ _ _ _ best_chol_exact A1 A2) as (_ & _ & B1 & B2 & B3 & _).
  split; [rewrite B3 by (simpl; lia); unfold pm2, of_list; cbn [v_at nth]; rewrite !INR_IZR_INZ; cbn [Z.of_nat Nat.add]; simpl; field|rewrite B2; simpl; ring].
Qed.
Example batches_case : exists p q, absorb best_chol None 2 pm2 id2 (INR 4) (INR 4) (fun t i => INR (t * t + i)) 0 [2; 3]%nat = Ok p /\
  absorb best_chol None 2 pm2 id2 (INR 4) (INR 4) (fun t i => INR (t * t + i)) 0 [5%nat] = Ok q /\ same_posterior 2 p q.
Proof.
  assert (Hid : psd 2 id2) by (intros x; unfold quad, id2; simpl; unfold delta; simpl; nra).
  apply (niw_batches best_chol None 2 pm2 id2 4 4 (fun t i => INR (t * t + i)) 0 [2; 3]%nat best_chol_complete); try lia; auto; try discriminate.
  intros n [<-|[<-|[]]]; lia.
Qed.
Example fractional_case : exists o, niw_init best_chol (VIn None 1 2 pm2) (MIn None 2 2 2 id2) (1 / 2) 1 = Ok o.
Proof.
  assert (Hid : psd 2 id2) by (intros x; unfold quad, id2; simpl; unfold delta; simpl; nra).
  eexists. apply (niw_init_total best_chol None 2 pm2 id2 (1 / 2) 1 best_chol_complete); try lia; auto; lra.
Qed.
