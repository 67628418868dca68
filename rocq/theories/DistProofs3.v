From Coq Require Import Lia Lra.
From Verif Require Import RBase QpBase MomModel MomSpec ConsModel DistModel OptSpec DistSpec DistProofs DistProofs2.
Open Scope R_scope.
Open Scope list_scope.

(** ** Stored values *)
Lemma flat_at m k : nd_at (flat m) k = nd_at m k.
Proof. reflexivity. Qed.

Lemma make_dist_values i d : make_dist i = Ok d ->
  d_scen d = option_map snd (i_scen i) /\
  (forall l m, i_mu i = Some (l, m) -> d_mu d = Some (flat m)) /\
  (forall l c, i_cov i = Some (l, c) -> d_cov d = Some c) /\
  (i_scen i = None -> d_probs d = None /\ (i_mu i = None -> d_mu d = None) /\ (i_cov i = None -> d_cov d = None)) /\
  (forall l X, i_scen i = Some (l, X) -> exists T p q, d_T d = Some T /\ nd_shape X = [T; d_N d] /\ d_probs d = Some p /\
     real_array p [T] q /\ normalised T (i_probs i) q /\
     (i_mu i = None -> exists m, d_mu d = Some m /\ real_array m [d_N d] (mean_of T q (as_mat (d_N d) X))) /\
     (i_cov i = None -> exists c, d_cov d = Some c /\ nd_shape c = [d_N d; d_N d] /\
        forall a j, (j < d_N d)%nat -> nd_at c (pos (d_N d) a j) = Fin (cov_of T q (as_mat (d_N d) X) a j))).
Proof.
  intros H. destruct (make_dist_inv i d H) as (mu & cov & F). destruct (df_fin _ _ _ _ F) as (O1 & O2 & O3).
  pose proof (from_scen_inv _ _ _ _ _ _ (df_from _ _ _ _ F)) as HF.
  split; [apply F|]. rewrite (df_mu _ _ _ _ F), (df_cov _ _ _ _ F). rewrite (df_scen _ _ _ _ F) in O3.
  destruct (i_scen i) as [[lab X]|] eqn:Ei.
  - destruct HF as (t & n & p & q & m & c & EN & ET & EP & -> & -> & SF). rewrite ET in EN. injection EN as EN. subst n. simpl in O3.
    split. { intros l m' E. pose proof (sf_mu _ _ _ _ _ _ _ _ SF) as Q. unfold given_mu in Q. rewrite E in Q. simpl in Q. rewrite Q. reflexivity. }
    split. { intros l c' E. pose proof (sf_cov _ _ _ _ _ _ _ _ SF) as Q. unfold given_cov in Q. rewrite E in Q. simpl in Q. rewrite Q. reflexivity. }
    split; [discriminate|]. intros l X' E. injection E as <- <-. exists t, p, q. split; [exact ET|]. split; [apply SF|]. split; [exact EP|]. split; [apply SF|]. split; [apply SF|].
    split.
    + intros E. pose proof (sf_mu _ _ _ _ _ _ _ _ SF) as Q. unfold given_mu in Q. rewrite E in Q. simpl in Q. destruct Q as [Q1 Q2].
      exists (flat m). split; [reflexivity|]. split; [simpl; rewrite (size1 m _ Q1); reflexivity|]. intros k _. simpl. apply Q2, O3.
    + intros E. pose proof (sf_cov _ _ _ _ _ _ _ _ SF) as Q. unfold given_cov in Q. rewrite E in Q. simpl in Q. destruct Q as [Q1 Q2].
      exists c. split; [reflexivity|]. split; [exact Q1|]. apply Q2, O3.
  - destruct HF as (EN & ET & EP & -> & ->).
    split; [intros l m E; unfold given_mu; rewrite E; reflexivity|]. split; [intros l m E; unfold given_cov; rewrite E; reflexivity|].
    split; [|discriminate]. intros _. split; [exact EP|]. split; intros E; unfold given_mu, given_cov; rewrite E; reflexivity.
Qed.

Lemma make_dist_names i d l : pandas_ok i -> make_dist i = Ok d -> In l (supplied_labels i) -> d_names d = Some l.
Proof.
  intros P H Hl. pose proof (make_dist_consistent i d P H) as (HN & (nm & Ln & Hn) & _).
  destruct (make_dist_inv i d H) as (mu & cov & F). destruct (df_names _ _ _ _ F) as (n1 & n2 & E1 & E2 & E3).
  unfold supplied_labels in *.
  assert (M : forall e r, merge_names e nm = Ok r -> r = Some nm) by (intros e r Q; apply (merge_inv _ _ _ Q), (nonnil nm _ HN Ln)).
  assert (S1 : n1 = i_names i \/ n1 = Some nm).
  { unfold names_mu in E1. destruct (i_mu i) as [[[idx|] a]|] eqn:Ei; try (left; congruence).
    right. rewrite (Hn idx) in E1 by (apply in_or_app; right; left; reflexivity). eapply M; eauto. }
  assert (S2 : n2 = n1 \/ n2 = Some nm).
  { unfold names_cov in E2. destruct (i_cov i) as [[[[r c]|] a]|] eqn:Ei; try (left; congruence).
    right. rewrite (Hn r) in E2 by (apply in_or_app; right; apply in_or_app; right; left; reflexivity).
    destruct (merge_names n1 nm) as [x|] eqn:Em; [|discriminate]. cbn [bind] in E2. rewrite (M _ _ Em) in E2.
    destruct (names_eqb c nm); [congruence|discriminate]. }
  assert (S3 : d_names d = n2 \/ d_names d = Some nm).
  { unfold names_scen in E3. destruct (i_scen i) as [[[cols|] a]|] eqn:Ei; try (left; congruence).
    right. rewrite (Hn cols) in E3 by (apply in_or_app; right; apply in_or_app; right; apply in_or_app; right; left; reflexivity). eapply M; eauto. }
  rewrite (Hn l Hl).
  (* some source is present *)
  assert (K2 : n2 = Some nm -> d_names d = Some nm) by (intros Q; destruct S3 as [-> | ->]; [exact Q|reflexivity]).
  assert (K1 : n1 = Some nm -> d_names d = Some nm) by (intros Q; apply K2; destruct S2 as [-> | ->]; [exact Q|reflexivity]).
  apply in_app_or in Hl as [Hl|Hl].
  { destruct (i_names i) as [l'|] eqn:En; [|destruct Hl]. apply K1. destruct S1 as [-> | ->]; [|reflexivity].
    rewrite (Hn l') by (left; reflexivity). reflexivity. }
  apply in_app_or in Hl as [Hl|Hl].
  { destruct (i_mu i) as [[[idx|] a]|] eqn:Ei; try destruct Hl. subst idx. apply K1. unfold names_mu in E1. rewrite Ei in E1.
    rewrite (Hn l) in E1 by (apply in_or_app; right; left; reflexivity). eapply M; eauto. destruct H0. }
  apply in_app_or in Hl as [Hl|Hl].
  { apply K2. unfold names_cov in E2. destruct (i_cov i) as [[[[r c]|] a]|] eqn:Ei; try destruct Hl as [].
    - rewrite (Hn r) in E2 by (apply in_or_app; right; apply in_or_app; right; left; reflexivity).
      destruct (merge_names n1 nm) as [x|] eqn:Em; [|discriminate]. cbn [bind] in E2. rewrite (M _ _ Em) in E2.
      destruct (names_eqb c nm); [congruence|discriminate].
    - rewrite (Hn r) in E2 by (apply in_or_app; right; apply in_or_app; right; left; reflexivity).
      destruct (merge_names n1 nm) as [x|] eqn:Em; [|discriminate]. cbn [bind] in E2. rewrite (M _ _ Em) in E2.
      destruct (names_eqb c nm); [congruence|discriminate]. }
  { unfold names_scen in E3. destruct (i_scen i) as [[[cols|] a]|] eqn:Ei; try destruct Hl as [].
    - rewrite (Hn cols) in E3 by (apply in_or_app; right; apply in_or_app; right; apply in_or_app; right; left; reflexivity). eapply M; eauto.
    - destruct H0. }
Qed.

(** ** Prices *)
Lemma compound_prices N f j t : (forall s, (s < t)%nat -> 0 < f (pos N s j)) ->
  compound (f (pos N 0 j)) (fun s => f (pos N (S s) j) / f (pos N s j) - 1) t = f (pos N t j).
Proof.
  induction t as [|t IH]; intros H; [reflexivity|]. simpl compound. rewrite IH by (intros; apply H; lia).
  assert (0 < f (pos N t j)) by (apply H; lia). field. lra.
Qed.

Definition ret_of (N : nat) (f : nat -> R) (k : nat) : R := f (k + N)%nat / f k - 1.

Lemma price_returns_real a T N f : price_history a T N f -> real_array (price_returns a) [T; N] (ret_of N f).
Proof.
  intros (HT & HN & (Hs & Hf) & Hp). unfold price_returns. assert (Hr : row_len a = N) by (unfold row_len; rewrite Hs; simpl; lia).
  rewrite Hr. split; [simpl; rewrite Hs; simpl; f_equal; lia|].
  assert (Hz : nd_size (mkND ((hd 0%nat (nd_shape a) - 1)%nat :: tl (nd_shape a)) (fun k => p_ratio1 (nd_at a (k + N)%nat) (nd_at a k))) = (T * N)%nat).
  { unfold nd_size. simpl. rewrite Hs. simpl. nia. }
  rewrite Hz. intros k Hk. cbn [nd_at].
  assert (Ha : nd_size a = (S T * N)%nat) by (apply size2; exact Hs).
  rewrite !Hf by (rewrite Ha; simpl; lia). reflexivity.
Qed.

Lemma ret_gt a T N f k : price_history a T N f -> (k < T * N)%nat -> -1 < ret_of N f k.
Proof.
  intros (HT & HN & _ & Hp) Hk. unfold ret_of. assert (H1 : 0 < f k) by (apply Hp; simpl; lia).
  assert (H2 : 0 < f (k + N)%nat) by (apply Hp; simpl; lia).
  assert (0 < f (k + N)%nat / f k) by (apply Rdiv_lt_0_compat; assumption). lra.
Qed.

Lemma real_array_ext a s f g : real_array a s f -> (forall k, (k < nd_size a)%nat -> f k = g k) -> real_array a s g.
Proof. intros [Hs H] E. split; [exact Hs|]. intros k Hk. rewrite H, E by exact Hk. reflexivity. Qed.

Lemma prices_core labels a T N f : price_history a T N f -> (forall l, labels = Some l -> List.length l = N) ->
  exists d X p m c, from_scenarios false labels (price_returns a) None = Ok d /\ d_N d = N /\ d_T d = Some T /\ d_names d = labels /\
    d_scen d = Some X /\ real_array X [T; N] (ret_of N f) /\
    d_probs d = Some p /\ real_array p [T] (fun _ => 1 / INR T) /\
    d_mu d = Some m /\ d_cov d = Some c.
Proof.
  intros H HL. pose proof H as (HT & HN & Ha & Hp). pose proof (price_returns_real a T N f H) as HX.
  unfold from_scenarios. set (i := mkIn None None (Some (labels, price_returns a)) None None).
  assert (Hc : consistent N i).
  { split; [exact HN|]. split.
    { destruct labels as [l|]; unfold supplied_labels; simpl.
      - exists l. split; [apply HL; reflexivity|]. intros x [<-|[]]. reflexivity.
      - exists (repeat EmptyString N). split; [apply repeat_length|]. intros x []. }
    split; [exact I|]. split; [exact I|]. simpl. exists T. split; [exact HT|]. split; [exists (ret_of N f); exact HX|exact I]. }
  destruct (consistent_make_dist i N Hc) as (d & Ed & EN).
  assert (HP : pandas_ok i).
  { split; [exact I|]. split; [exact I|]. simpl. destruct labels as [l|]; [|exact I]. exists T. rewrite (HL l eq_refl). apply HX. }
  destruct (make_dist_values i d Ed) as (V1 & _ & _ & _ & V5). simpl in V1.
  destruct (V5 labels (price_returns a) eq_refl) as (T' & p & q & ET & Hs & EP & Hq & Hnm & Vm & Vc).
  assert (T' = T) by (destruct HX as [HX _]; rewrite HX in Hs; congruence). subst T'.
  destruct (Vm eq_refl) as (m & Em & _). destruct (Vc eq_refl) as (c & Ec & _).
  exists d, (price_returns a), p, m, c. repeat (split; [assumption|]).
  split. { destruct labels as [l|].
    - apply (make_dist_names i d l HP Ed). unfold supplied_labels. simpl. left. reflexivity.
    - destruct (make_dist_inv i d Ed) as (mu & cov & F). destruct (df_names _ _ _ _ F) as (n1 & n2 & E1 & E2 & E3). simpl in *. unfold names_mu, names_cov, names_scen in *. simpl in *. congruence. }
  split; [exact V1|]. split; [exact HX|]. split; [exact EP|]. split; [|auto].
  apply (real_array_ext _ _ _ _ Hq). intros k Hk. apply Hnm. rewrite (size1 p T) in Hk by apply Hq. exact Hk.
Qed.

Lemma prices_inv_core labels a d : (2 <= List.length (nd_shape a))%nat -> (2 <= hd 0 (nd_shape a))%nat ->
  nd_all p_fin a = true -> nd_any p_le0 a = false -> from_scenarios false labels (price_returns a) None = Ok d ->
  exists T f, price_history a T (d_N d) f.
Proof.
  intros E0 E1 E2 E3 H. unfold from_scenarios in H.
  pose proof (make_dist_valid _ _ H) as V. destruct (make_dist_values _ _ H) as (V1 & _ & _ & _ & V5). simpl in V1.
  destruct (V5 labels (price_returns a) eq_refl) as (T & p & q & ET & Hs & _).
  destruct (nd_shape a) as [|r [|c rest]] eqn:Ea; simpl in E0, E1; try lia.
  unfold price_returns in Hs. rewrite Ea in Hs. simpl in Hs. injection Hs as H1 H2 H3. subst rest c.
  exists T, (as_vec a). split; [|split; [|split]].
  - pose proof (vd_scen _ V) as Q. rewrite V1, ET in Q. destruct (d_probs d); [|destruct Q]. destruct Q as [Q _]. exact Q.
  - apply (vd_N _ V).
  - apply all_fin_real in E2. destruct E2 as [_ E2]. split; [rewrite Ea; f_equal; lia|exact E2].
  - intros k Hk. assert (Hk' : (k < nd_size a)%nat) by (rewrite (size2 a r (d_N d) Ea); nia).
    rewrite nd_any_iff in E3. specialize (E3 k Hk'). rewrite nd_all_iff in E2. specialize (E2 k Hk'). apply fin_val in E2. unfold as_vec.
    rewrite E2 in E3. simpl in E3. apply Rleb_false in E3. exact E3.
Qed.

Lemma prices_array_inv a d : from_prices (PArr a) = Ok d -> exists T f, price_history a T (d_N d) f.
Proof.
  unfold from_prices. destruct ((List.length (nd_shape a) <? 2)%nat || (hd 0 (nd_shape a) <? 2)%nat) eqn:E0; [discriminate|].
  apply Bool.orb_false_iff in E0 as [E0 E1]. apply Nat.ltb_ge in E0. apply Nat.ltb_ge in E1.
  destruct (negb (nd_all p_fin a)) eqn:E2; [discriminate|]. apply Bool.negb_false_iff in E2.
  destruct (nd_any p_le0 a) eqn:E3; [discriminate|]. apply prices_inv_core; assumption.
Qed.

Lemma prices_frame_inv cols a d r : nd_shape a = [r; List.length cols] -> nd_all p_fin a = true ->
  from_prices (PFrame cols a) = Ok d -> exists T f, price_history a T (List.length cols) f.
Proof.
  intros Hs Hf. unfold from_prices. destruct (_ <? 2)%nat eqn:E1; [discriminate|]. apply Nat.ltb_ge in E1. destruct (nd_any p_nan a) eqn:E2; [discriminate|].
  destruct (nd_any p_le0 a) eqn:E3; [discriminate|]. intros H.
  destruct (prices_inv_core (Some cols) a d) as (T & f & HH); try assumption.
  { rewrite Hs. simpl. lia. }
  exists T, f. assert (d_N d = List.length cols) by (destruct HH as (_ & _ & (Hs' & _) & _); rewrite Hs in Hs'; congruence). congruence.
Qed.

Lemma history_checks a T N f : price_history a T N f ->
  nd_all p_fin a = true /\ nd_any p_le0 a = false /\ nd_any p_nan a = false.
Proof.
  intros (HT & HN & (Hs & Hf) & Hp). pose proof (size2 a (S T) N Hs) as Hz.
  split; [|split].
  - apply nd_all_iff. intros k Hk. rewrite Hf by exact Hk. reflexivity.
  - apply nd_any_iff. intros k Hk. rewrite Hf by exact Hk. simpl. apply Rleb_false, Hp. rewrite <- Hz. exact Hk.
  - apply nd_any_iff. intros k Hk. rewrite Hf by exact Hk. reflexivity.
Qed.

Lemma from_prices_err p e : from_prices p = Err e -> e = ValueError.
Proof.
  unfold from_prices. destruct p as [cols a|a].
  - destruct (_ <? 2)%nat; [congruence|]. destruct (nd_any _ _); [congruence|]. destruct (nd_any _ _); [congruence|]. apply make_dist_err.
  - destruct (_ || _); [congruence|]. destruct (negb _); [congruence|]. destruct (nd_any _ _); [congruence|]. apply make_dist_err.
Qed.

Lemma prices_accept labels a T N f p : price_history a T N f -> (forall l, labels = Some l -> List.length l = N) ->
  p = match labels with Some l => PFrame l a | None => PArr a end ->
  exists d X pr m c, from_prices p = Ok d /\ d_N d = N /\ d_T d = Some T /\ d_names d = labels /\
    d_scen d = Some X /\ real_array X [T; N] (ret_of N f) /\
    d_probs d = Some pr /\ real_array pr [T] (fun _ => 1 / INR T) /\ d_mu d = Some m /\ d_cov d = Some c.
Proof.
  intros H HL ->. destruct (prices_core labels a T N f H HL) as (d & X & pr & m & c & E & R).
  exists d, X, pr, m, c. split; [|exact R]. destruct (history_checks a T N f H) as (C1 & C2 & C3). pose proof H as (HT & _ & (Hs & _) & _).
  destruct labels as [l|]; unfold from_prices; rewrite ?C1, C2, ?C3, Hs; simpl; destruct T; try lia; exact E.
Qed.
