(** Black-Litterman: the posterior of a whole call. *)
From Coq Require Import Psatz ZArith.
From Verif Require Import RBase QpBase OptModel OptSpec ExistSpec OptProofs OptProofs7 OptProofs8 NiwModel BlModel BlSpec BlProofs BlProofs2.
From Verif Require MomModel MomSpec MomProofs MomProofs3.
Open Scope R_scope.
Open Scope list_scope.

Lemma of_list_map_seq n (f : nat -> R) i : (i < n)%nat -> of_list (map f (seq 0 n)) i = f i.
Proof. intros Hi. unfold of_list. rewrite (nth_map_lt f _ _ 0%nat) by (rewrite seq_length; auto). rewrite seq_nth by auto. reflexivity. Qed.

Lemma bl_prior_mean a pi after : symmetric (m_rows (a_cov a)) (m_at (a_cov a)) ->
  bl_prior (m_rows (a_cov a)) (bl_sigma (m_rows (a_cov a)) (m_at (a_cov a))) a = Ok (pi, after) ->
  forall i, (i < m_rows (a_cov a))%nat -> of_list pi i = prior_mean_of a i.
Proof.
  intros HS H i Hi. rewrite bl_sigma_sym in H by auto. unfold bl_prior in H. unfold prior_mean_of. destruct (a_pi a) as [l|]; [injection H as <- _; reflexivity|].
  destruct (a_weights a) as [w|].
  - apply guard_ok in H as [G H]. apply Nat.eqb_eq in G. injection H as <- _. rewrite of_list_map_seq by auto. f_equal. apply dot_ext; auto. intros j Hj.
    unfold of_list. rewrite (nth_map_lt (fun x => x / rsum (w_vals w)) _ _ 0) by lia. reflexivity.
  - destruct (a_mean a); [injection H as <- _; reflexivity|discriminate].
Qed.

Section Call.
  Variables (ls : nat -> mat -> nat -> mat -> option mat) (a : bl_args) (r : bl) (n : nat) (sigma : mat) (d : list (vkey * vval)) (idx : label -> nat).
  Hypothesis Hls : exact_solve ls.
  Hypothesis HS : bl_setting a n sigma d idx.
  Hypothesis HR : black_litterman ls a = Ok r.
  Let k := List.length d.
  Let tau := a_tau a.
  Let ts : mat := fun i j => tau * sigma i j.
  Let P : mat := fun v => key_row idx (nth_key d v).
  Let pi := prior_mean_of a.

  Lemma st_n : List.length (bl_assets (a_cov a)) = n.
  Proof. destruct HS. subst n. apply bl_assets_length; auto. Qed.

  Lemma P_value v mu : (v < k)%nat -> dot n (P v) mu = view_value idx (nth_key d v) mu.
  Proof.
    intros Hv. unfold P. rewrite <- st_n. apply key_row_value. unfold nth_key. pose proof (nth_In d (KTup [], VNum 0) Hv) as HI. destruct (nth v d (KTup [], VNum 0)) as [key val].
    exact (st_proper _ _ _ _ _ HS _ _ HI).
  Qed.

  Lemma call_shape : exists x Y,
    b_len r = n /\ List.length (b_P r) = k /\ List.length (b_Q r) = k /\
    (forall v, (v < k)%nat -> mv k (bl_A n ts (b_om r) P) x v = view_error idx d pi v) /\
    (forall v j, (v < k)%nat -> (j < n)%nat -> mv k (bl_A n ts (b_om r) P) (fun b => Y b j) v = sumn n (fun i => P v i * ts i j)) /\
    (forall i, (i < n)%nat -> b_mean r i = pi i + mv n ts (pt k P x) i) /\
    (forall i j, (i < n)%nat -> (j < n)%nat -> b_cov r i j = 1 / 2 * ((sigma i j + ts i j - bl_mid n k ts P Y i j) + (sigma j i + ts j i - bl_mid n k ts P Y j i))).
  Proof.
    pose proof HS as HS'. destruct HS' as [E1 E2 E3 E4 E5 E6 E7]. pose proof st_n as En. apply bl_ok in HR. cbn zeta in HR. rewrite E1, E3 in HR.
    destruct HR as (_ & _ & _ & pi' & after & d' & vs & cf & om & B1 & B2 & B3 & B4 & B5 & B6 & B7 & B8 & B9 & _).
    rewrite E5 in B2. injection B2 as <-. rewrite (bl_sigma_sym n sigma) in * by auto.
    destruct (build_views_proper _ idx d vs E7 B3) as [L V]. assert (Hpi : forall i, (i < n)%nat -> of_list pi' i = pi i).
    { subst n sigma. rewrite <- (bl_sigma_sym (m_rows (a_cov a)) (m_at (a_cov a))) in B1 by auto. intros i Hi. eapply bl_prior_mean; eauto. }
    assert (Lk : List.length (map vw_row vs) = k) by (rewrite map_length; exact L).
    apply (posterior_ok ls) in B6; auto.
    2: { intros C. rewrite C in Lk. simpl in Lk. destruct d; [congruence|]. discriminate. }
    cbn zeta in B6. rewrite Lk in B6. destruct B6 as (Q1 & Q2 & x & Y & X1 & X2 & X3 & X4).
    assert (EA : forall v b, (v < k)%nat -> (b < k)%nat -> bl_A n ts (b_om r) P v b = bl_A n ts om (rows_mat (map vw_row vs)) v b).
    { intros v b Hv Hb. unfold bl_A. rewrite B9. destruct (V v Hv) as (-> & _). destruct (V b Hb) as (-> & _). reflexivity. }
    exists x, Y. split; auto. split; [rewrite B7; auto|]. split; [rewrite B8, map_length; exact L|]. split; [|split; [|split]].
    - intros v Hv. rewrite (mv_ext' k _ (bl_A n ts om (rows_mat (map vw_row vs))) x x v); auto. unfold ts, tau. rewrite X1 by auto.
      destruct (V v Hv) as (V1 & V2 & _). rewrite V1, V2. unfold view_error. rewrite <- (P_value v pi Hv). f_equal. apply dot_ext; auto.
    - intros v j Hv Hj. rewrite (mv_ext' k _ (bl_A n ts om (rows_mat (map vw_row vs))) _ (fun b => Y b j) v); auto. unfold ts, tau. rewrite X2 by auto.
      destruct (V v Hv) as (V1 & _). rewrite V1. reflexivity.
    - intros i Hi. rewrite X3. rewrite Hpi by auto. f_equal. apply mv_ext'; auto. intros j Hj. unfold pt. apply sumn_ext. intros v Hv. destruct (V v Hv) as (V1 & _). rewrite V1. reflexivity.
    - intros i j Hi Hj. rewrite X4.
      assert (EM : forall i j, (i < n)%nat -> (j < n)%nat -> bl_mid n k (fun i j => a_tau a * sigma i j) (rows_mat (map vw_row vs)) Y i j = bl_mid n k ts P Y i j).
      { intros u w _ _. unfold bl_mid. apply sumn_ext. intros l Hl. f_equal. apply sumn_ext. intros v Hv. destruct (V v Hv) as (V1 & _). rewrite V1. reflexivity. }
      rewrite !EM by auto. reflexivity.
  Qed.

  Lemma ts_sym : symmetric n ts.
  Proof. intros i j Hi Hj. unfold ts. rewrite (st_sym _ _ _ _ _ HS i j) by auto. reflexivity. Qed.

  (** The posterior covariance without the symmetrisation step. *)
  Lemma call_cov : symmetric k (b_om r) -> exists Y,
    (forall v j, (v < k)%nat -> (j < n)%nat -> mv k (bl_A n ts (b_om r) P) (fun b => Y b j) v = sumn n (fun i => P v i * ts i j)) /\
    (forall i j, (i < n)%nat -> (j < n)%nat -> b_cov r i j = sigma i j + (ts i j - bl_mid n k ts P Y i j)).
  Proof.
    intros Ho. destruct call_shape as (x & Y & _ & _ & _ & _ & HY & _ & HC). exists Y. split; auto. intros i j Hi Hj. rewrite HC by auto.
    rewrite (st_sym _ _ _ _ _ HS j i) by auto. rewrite (ts_sym j i) by auto. rewrite (mid_symmetric n k ts (b_om r) P Y ts_sym Ho HY j i) by auto. field.
  Qed.
End Call.
