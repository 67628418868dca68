(** Totality, pooling and histories of the Bayesian posterior. *)
From Coq Require Import Psatz ZArith.
From Verif Require Import RBase QpBase OptModel OptSpec OptProofs3 OptProofs7 OptProofs8 ExistSpec NiwModel NiwSpec NiwProofs.
From Verif Require ProjModel.
Open Scope R_scope.
Open Scope list_scope.

Lemma names_eqb_refl l : names_eqb l l = true.
Proof. unfold names_eqb. destruct (list_eq_dec string_dec l l); congruence. Qed.
Lemma prior_index_sq lab n m r c k C : prior_index (VIn lab n m r) (MIn (sq lab) k c c C) = Ok lab.
Proof. destruct lab as [l|]; simpl; auto. unfold prior_index; simpl. rewrite names_eqb_refl. reflexivity. Qed.

Lemma niw_init_total chol lab N mu C t nu : complete_chol chol -> (0 < N)%nat -> psd N C -> 0 < t -> 0 <= nu ->
  niw_init chol (VIn lab 1 N mu) (MIn (sq lab) 2 N N C) t nu = Ok (Niw N mu C (ProjModel.trunc t) (ProjModel.trunc nu) lab None).
Proof.
  intros Hc HN HC Ht Hnu. unfold niw_init. cbn [v_nd v_n v_at m_nd m_rows m_cols m_at guard Nat.eqb].
  destruct (Nat.eqb_spec N 0); [lia|]. cbn [negb]. rewrite prior_index_sq. cbn [bind]. rewrite Nat.eqb_refl. cbn [andb guard].
  destruct (Rleb_spec t 0); [lra|]. destruct (Rltb_spec nu 0); [lra|]. cbn [negb guard].
  destruct (cholesky_pd_total chol N C Hc HC) as [L ->]. reflexivity.
Qed.

Lemma niw_update_total chol o smu ssg n : complete_chol chol -> w_post o = None -> (0 < w_t0 o)%Z -> (0 <= w_nu0 o)%Z ->
  v_nd smu = 1%nat -> v_n smu = w_N o -> 0 < n -> m_nd ssg = 2%nat -> m_rows ssg = w_N o -> m_cols ssg = w_N o ->
  psd (w_N o) (w_sigma o) -> psd (w_N o) (m_at ssg) ->
  exists o' p, niw_update chol o smu ssg n = Ok (o', p).
Proof.
  intros Hc H1 H2 H2' H3 H4 H5 H6 H7 H8 H9 H10. apply IZR_lt in H2. apply IZR_le in H2'. unfold niw_update. rewrite H1, H3, H4, H6, H7, H8, !Nat.eqb_refl. cbn [guard andb].
  destruct (Rleb_spec n 0); [lra|]. cbn [negb guard].
  destruct (cholesky_pd_total chol _ _ Hc H10) as [L ->]. cbn [bind].
  destruct (Z.eqb_spec (w_t0 o) 0) as [E|E]; [rewrite E in H2; lra|]. cbn [negb guard].
  destruct (Rleb_spec (IZR (w_nu0 o) + n) 0); [lra|]. cbn [negb guard].
  destruct (cholesky_pd_total chol (w_N o) (post_sigma o (v_at smu) (m_at ssg) n) Hc) as [L' HL'].
  - apply post_sigma_psd; auto.
  - unfold post_sigma in HL'. rewrite HL'. simpl. eauto.
Qed.

Lemma niw_step chol lab N mu C t0 nu0 X a n : complete_chol chol -> (0 < N)%nat -> (0 < t0)%nat -> (0 < n)%nat -> psd N C ->
  exists o o' p, niw_init chol (VIn lab 1 N mu) (MIn (sq lab) 2 N N C) (INR t0) (INR nu0) = Ok o /\
    niw_update chol o (VIn lab 1 N (data_mean X a n)) (MIn (sq lab) 2 N N (data_cov X a n)) (INR n) = Ok (o', p) /\
    T1 p = INR (t0 + n) /\ nu1 p = INR (nu0 + n) /\ psd N (snd (sigma1 p)) /\ fst (mu1 p) = lab /\ fst (sigma1 p) = lab /\
    (forall i, T1 p * snd (mu1 p) i = INR t0 * mu i + sumn n (fun k => X (a + k)%nat i)) /\
    (forall i j, nu1 p * snd (sigma1 p) i j + T1 p * (snd (mu1 p) i * snd (mu1 p) j)
       = INR nu0 * C i j + INR t0 * (mu i * mu j) + sumn n (fun k => X (a + k)%nat i * X (a + k)%nat j)).
Proof.
  intros Hc HN Ht Hn HC. pose proof (lt_0_INR _ Ht). pose proof (lt_0_INR _ Hn). pose proof (pos_INR nu0).
  pose proof (niw_init_total chol lab N mu C (INR t0) (INR nu0) Hc HN HC ltac:(auto) ltac:(auto)) as Hi. rewrite !trunc_INR in Hi.
  set (o := Niw N mu C (Z.of_nat t0) (Z.of_nat nu0) lab None) in *.
  destruct (niw_update_total chol o (VIn lab 1 N (data_mean X a n)) (MIn (sq lab) 2 N N (data_cov X a n)) (INR n)) as (o' & p & Hu); auto; simpl; try lia.
  { apply data_cov_psd; auto. }
  exists o, o', p. split; [exact Hi|]. split; [exact Hu|].
  apply niw_update_ok in Hu as (_ & _ & _ & _ & _ & _ & _ & _ & _ & _ & _ & -> & _).
  assert (E1 : IZR (w_t0 o) = INR t0) by apply IZR_nat. assert (E2 : IZR (w_nu0 o) = INR nu0) by apply IZR_nat.
  cbn [T1 nu1 mu1 sigma1 fst snd v_at m_at].
  split; [rewrite plus_INR, E1; reflexivity|]. split; [rewrite plus_INR, E2; reflexivity|].
  split; [apply post_sigma_psd; try (rewrite ?E1, ?E2; auto; fail); auto; apply data_cov_psd; auto|].
  split; [reflexivity|]. split; [reflexivity|]. split.
  - intros i. rewrite <- data_sum by auto. unfold post_mu. rewrite E1. simpl. field. lra.
  - intros i j. rewrite (post_stats o) by (rewrite ?E1, ?E2; lra). rewrite E1, E2, <- data_stats by auto. reflexivity.
Qed.

Lemma absorb_stats chol lab N X sizes : complete_chol chol -> (0 < N)%nat -> (forall n, In n sizes -> (0 < n)%nat) ->
  forall mu C t0 nu0 a, (0 < t0)%nat -> psd N C -> let k := total sizes in
  exists p, absorb chol lab N mu C (INR t0) (INR nu0) X a sizes = Ok p /\
    T1 p = INR (t0 + k) /\ nu1 p = INR (nu0 + k) /\ psd N (snd (sigma1 p)) /\ fst (mu1 p) = lab /\ fst (sigma1 p) = lab /\
    (forall i, T1 p * snd (mu1 p) i = INR t0 * mu i + sumn k (fun t => X (a + t)%nat i)) /\
    (forall i j, nu1 p * snd (sigma1 p) i j + T1 p * (snd (mu1 p) i * snd (mu1 p) j)
       = INR nu0 * C i j + INR t0 * (mu i * mu j) + sumn k (fun t => X (a + t)%nat i * X (a + t)%nat j)).
Proof.
  intros Hc HN. induction sizes as [|n rest IH]; intros Hpos mu C t0 nu0 a Ht HC k.
  - exists (Params (INR t0) (lab, mu) (INR nu0) (lab, C)). subst k. cbn [total fold_right absorb T1 nu1 mu1 sigma1 fst snd sumn]. rewrite !Nat.add_0_r.
    split; [reflexivity|]. split; [reflexivity|]. split; [reflexivity|]. split; [exact HC|]. split; [reflexivity|]. split; [reflexivity|]. split; intros; ring.
  - destruct (niw_step chol lab N mu C t0 nu0 X a n) as (o & o' & p & A1 & A2 & A3 & A4 & A5 & _ & _ & A6 & A7); auto.
    { apply Hpos; left; auto. }
    cbn [absorb]. rewrite A1. cbn [bind]. rewrite A2. cbn [bind]. rewrite A3, A4.
    destruct (IH ltac:(intros; apply Hpos; right; auto) (snd (mu1 p)) (snd (sigma1 p)) (t0 + n)%nat (nu0 + n)%nat (a + n)%nat ltac:(lia) A5)
      as (q & B1 & B2 & B3 & B4 & B5 & B6 & B7 & B8).
    exists q. subst k. cbn [total fold_right]. fold (total rest). split; [exact B1|]. split; [rewrite B2; f_equal; lia|]. split; [rewrite B3; f_equal; lia|].
    split; [exact B4|]. split; [exact B5|]. split; [exact B6|]. split.
    + intros i. rewrite B7, <- A3, A6, sumn_app. rewrite (sumn_ext (total rest) (fun k => X (a + (n + k))%nat i) (fun t => X (a + n + t)%nat i)); [ring|].
      intros; f_equal; lia.
    + intros i j. rewrite B8, <- A4, <- A3, A7, sumn_app.
      rewrite (sumn_ext (total rest) (fun k => X (a + (n + k))%nat i * X (a + (n + k))%nat j) (fun t => X (a + n + t)%nat i * X (a + n + t)%nat j)); [ring|].
      intros; rewrite Nat.add_assoc; auto.
Qed.

Lemma absorb_pool chol lab N X sizes mu C t0 nu0 a : complete_chol chol -> (0 < N)%nat -> (0 < t0)%nat -> psd N C ->
  sizes <> [] -> (forall n, In n sizes -> (0 < n)%nat) ->
  exists p q, absorb chol lab N mu C (INR t0) (INR nu0) X a sizes = Ok p /\
    absorb chol lab N mu C (INR t0) (INR nu0) X a [total sizes] = Ok q /\ same_posterior N p q.
Proof.
  intros Hc HN Ht HC Hne Hpos.
  assert (Hk : (0 < total sizes)%nat).
  { destruct sizes as [|n rest]; [congruence|]. simpl. specialize (Hpos n (or_introl eq_refl)). lia. }
  destruct (absorb_stats chol lab N X sizes Hc HN Hpos mu C t0 nu0 a Ht HC) as (p & A1 & A2 & A3 & _ & A5 & A6 & A7 & A8).
  destruct (absorb_stats chol lab N X [total sizes] Hc HN) with (mu := mu) (C := C) (t0 := t0) (nu0 := nu0) (a := a) as (q & B1 & B2 & B3 & _ & B5 & B6 & B7 & B8); auto.
  { intros n [<-|[]]; auto. }
  assert (Et : total [total sizes] = total sizes) by (simpl; lia). rewrite Et in *.
  exists p, q. split; [exact A1|]. split; [exact B1|].
  assert (P1 : 0 < T1 p) by (rewrite A2; apply lt_0_INR; lia). assert (P2 : 0 < nu1 p) by (rewrite A3; apply lt_0_INR; lia).
  assert (M : forall i, snd (mu1 p) i = snd (mu1 q) i).
  { intros i. apply Rmult_eq_reg_l with (T1 p); [|lra]. rewrite A7, A2, <- B2, B7. reflexivity. }
  split; [congruence|]. split; [congruence|]. split; [congruence|]. split; [congruence|]. split; [auto|].
  intros i j _ _. apply Rmult_eq_reg_l with (nu1 p); [|lra]. specialize (A8 i j). specialize (B8 i j).
  rewrite <- A8 in B8. rewrite A3, <- B3. rewrite B2, <- A2, B3, <- A3, <- !M in B8. rewrite A3 in B8. rewrite B3. lra.
Qed.

(** * Histories *)
Lemma step_cases chol ppf o c : (exists mu sg n o' p, c = CUpdate mu sg n /\ niw_update chol o mu sg n = Ok (o', p) /\ fst (step chol ppf o c) = o' /\ w_post o = None)
  \/ fst (step chol ppf o c) = o.
Proof.
  destruct c as [mu sg n| | | |p|p]; try (right; reflexivity). unfold step.
  destruct (niw_update chol o mu sg n) as [[o' p]|e] eqn:E; [left|right; reflexivity].
  exists mu, sg, n, o', p. repeat split; auto. apply niw_update_ok in E. tauto.
Qed.

Lemma run_updated chol ppf cs : forall o, w_post o <> None -> run chol ppf o cs = o.
Proof.
  induction cs as [|c cs IH]; intros o Ho; simpl; auto.
  destruct (step_cases chol ppf o c) as [(mu & sg & n & o' & p & _ & _ & _ & Hn)|E]; [congruence|]. rewrite E. auto.
Qed.

Lemma run_history chol ppf cs : forall o, w_post o = None ->
  (run chol ppf o cs = o /\ (forall mu sg n o' p, In (CUpdate mu sg n) cs -> niw_update chol o mu sg n <> Ok (o', p))) \/
  exists pre mu sg n post o' p, cs = pre ++ CUpdate mu sg n :: post /\
    (forall mu sg n o' p, In (CUpdate mu sg n) pre -> niw_update chol o mu sg n <> Ok (o', p)) /\
    niw_update chol o mu sg n = Ok (o', p) /\ run chol ppf o cs = o'.
Proof.
  induction cs as [|c cs IH]; intros o Ho.
  - left. split; auto.
  - cbn [run]. destruct (step_cases chol ppf o c) as [(mu & sg & n & o' & p & -> & E & F & _)|E].
    + right. exists [], mu, sg, n, cs, o', p. split; [reflexivity|]. split; [intros ? ? ? ? ? []|]. split; [exact E|].
      rewrite F. apply run_updated. apply niw_update_ok in E as (_ & _ & _ & _ & _ & _ & _ & _ & _ & _ & _ & _ & ->). discriminate.
    + rewrite E.
      assert (Hc : forall mu sg n o' p, c = CUpdate mu sg n -> niw_update chol o mu sg n <> Ok (o', p)).
      { intros mu sg n o' p -> H. unfold step in E. rewrite H in E. simpl in E. subst o'. apply niw_update_ok in H as (_ & _ & _ & _ & _ & _ & _ & _ & _ & _ & _ & _ & H). rewrite H in Ho. discriminate. }
      destruct (IH o Ho) as [[H1 H2]|(pre & mu & sg & n & post & o' & p & H1 & H2 & H3 & H4)].
      * left. split; [exact H1|]. intros mu sg n o' p [->|Hi]; [apply (Hc mu sg n o' p eq_refl)|apply H2; auto].
      * right. exists (c :: pre), mu, sg, n, post, o', p. split; [rewrite H1; reflexivity|]. split; [|split; auto].
        intros mu' sg' n' o'' p' [->|Hi]; [apply (Hc mu' sg' n' o'' p' eq_refl)|apply H2; auto].
Qed.
