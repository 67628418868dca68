(** Properties of [sparse_precision_glasso] (graphical lasso covariance). *)
From Coq Require Import List Lia Lra FunctionalExtensionality.
Import ListNotations.
From Verif Require Import Err RBase QpBase MomModel MomSpec MomProofs GlModel GlSpec EigLib GlProofs GlProofs2 GlProofs3.
From Verif Require ExistSpec BlProofs.
Open Scope R_scope.
Open Scope list_scope.

Lemma sample_S_eq T R_ c : sample_S T R_ c = emp_cov T (gl_data T R_ c).
Proof.
  extensionality i. extensionality j. unfold sample_S, emp_cov, gl_data, center. f_equal. apply sumn_ext. intros t _. destruct c; ring.
Qed.

(** The call with a number for [alpha]. *)
Lemma glasso_num env T N R_ a c r : sparse_precision_glasso env 2 T N R_ (GlNum a) c = Ok r ->
  (2 <= T)%nat /\ 0 < a /\ exists it, gl_fit env N (sample_S T R_ c) a = Ok (fst r, snd r, it).
Proof.
  rewrite sample_S_eq. unfold sparse_precision_glasso. cbn [Nat.eqb negb]. destruct (Nat.ltb_spec T 2) as [|HT]; [discriminate|]. unfold gl_choose.
  destruct (Rleb_spec a 0) as [|Ha]; [discriminate|]. cbn [bind]. intros E. apply bind_ok in E as ([[cov P] it] & E & Er). injection Er as <-.
  split; [exact HT|]. split; [lra|]. exists it. exact E.
Qed.
Lemma glasso_choice env T N R_ al c r : sparse_precision_glasso env 2 T N R_ al c = Ok r ->
  (2 <= T)%nat /\ exists a, 0 < a /\ gl_choose env T N (gl_data T R_ c) al = Ok a /\
    sparse_precision_glasso env 2 T N R_ (GlNum a) c = Ok r.
Proof.
  unfold sparse_precision_glasso. cbn [Nat.eqb negb]. destruct (Nat.ltb_spec T 2) as [|HT]; [discriminate|].
  intros E. apply bind_ok in E as (a & Ea & E). split; [exact HT|].
  assert (Ha : 0 < a).
  { destruct al as [| x |]; [|cbn [gl_choose] in Ea; destruct (Rleb_spec x 0); [discriminate|]; injection Ea as <-; lra|discriminate].
    destruct (proj1 (gl_choose_auto env T N _ a HT Ea)) as (k & Hk & ->).
    apply Rdiv_lt_0_compat; [unfold gl_alpha_max; eapply Rlt_le_trans; [|apply Rmax_r]; lra|]. pose proof (grid_pow_bounds k Hk). lra. }
  exists a. split; [exact Ha|]. split; [exact Ea|].
  cbn [gl_choose]. destruct (Rleb_spec a 0) as [|_]; [lra|]. exact E.
Qed.

(** * The returned pair *)
Theorem glasso_inverse_pair env T N R_ al c cov P : exact_gl_env env -> (0 < N)%nat ->
  sparse_precision_glasso env 2 T N R_ al c = Ok (cov, P) ->
  symmetric N cov /\ symmetric N P /\ ExistSpec.positive_definite N cov /\ ExistSpec.positive_definite N P /\ is_inverse N P cov.
Proof.
  intros HX HN E. destruct (glasso_choice _ _ _ _ _ _ _ E) as (_ & a & _ & _ & E').
  destruct (glasso_num _ _ _ _ _ _ _ E') as (HT & Ha & it & F). cbn [fst snd] in F. rewrite sample_S_eq in F.
  destruct (admm_spec env HX N _ HN (fun i j _ _ => emp_cov_sym T _ i j) (emp_cov_psd T N _) a 1 _ _ _ _ _ Rlt_0_1 Ha F)
    as (st & Zp & Up & Ti & -> & H & _ & HC & _). destruct H.
  assert (HC' : mat_eq N Ti cov) by (intros i j Hi Hj; symmetry; auto).
  assert (HI : is_inverse N (gl_Th st) cov).
  { intros i j Hi Hj. destruct (sp_inv i j Hi Hj) as [H1 H2]. rewrite <- H1 at 1. rewrite <- H2. unfold mmul.
    split; apply sumn_ext; intros k Hk; rewrite HC by auto; reflexivity. }
  split. { intros i j Hi Hj. rewrite !HC by auto. auto. }
  split; [intros i j _ _; apply sp_sym|]. split; [exact (pd_ext N Ti cov HC' sp_ipd)|]. split; [exact sp_pd|exact HI].
Qed.
Print Assumptions glasso_inverse_pair.

(** * Fit to the sample covariance *)
Theorem glasso_fit env T N R_ a c cov P : exact_gl_env env -> (0 < N)%nat ->
  sparse_precision_glasso env 2 T N R_ (GlNum a) c = Ok (cov, P) ->
  let slack := 1 / 10000 * (sqrt (INR N) + a * INR N) in
  (forall i j, (i < N)%nat -> (j < N)%nat -> i <> j -> Rabs (cov i j - sample_S T R_ c i j) <= a + slack) /\
  (forall i, (i < N)%nat -> Rabs (cov i i - sample_S T R_ c i i) <= slack).
Proof.
  intros HX HN E slack. destruct (glasso_num _ _ _ _ _ _ _ E) as (HT & Ha & it & F). cbn [fst snd] in F. rewrite sample_S_eq in F |- *.
  pose proof (admm_fit env HX N _ HN (fun i j _ _ => emp_cov_sym T _ i j) (emp_cov_psd T N _) a (1 / 10000) _ _ _ _ Ha ltac:(lra) F) as G.
  split.
  - intros i j Hi Hj Hn. specialize (G i j Hi Hj). apply Nat.eqb_neq in Hn. rewrite Hn in G. exact G.
  - intros i Hi. specialize (G i i Hi Hi). rewrite Nat.eqb_refl in G. unfold slack. rewrite Rplus_0_l in G. exact G.
Qed.
Print Assumptions glasso_fit.

(** With the default [assume_centered=True] the diagonal estimates the mean square, not the variance. *)
Theorem glasso_uncentred env T N R_ a cov P i : exact_gl_env env -> (i < N)%nat ->
  sparse_precision_glasso env 2 T N R_ (GlNum a) true = Ok (cov, P) ->
  let p : vec := fun _ => 1 / INR T in
  let x : vec := fun t => R_ t i in
  Rabs (cov i i - (variance T p x + expectation T p x ^ 2)) <= 1 / 10000 * (sqrt (INR N) + a * INR N).
Proof.
  intros HX Hi E p x. destruct (glasso_num _ _ _ _ _ _ _ E) as (HT & _ & _).
  pose proof (proj2 (glasso_fit env T N R_ a true cov P HX ltac:(lia) E) i Hi) as G.
  replace (variance T p x + expectation T p x ^ 2) with (sample_S T R_ true i i); [exact G|].
  assert (H0 : INR T <> 0) by (apply not_0_INR; lia).
  unfold variance. set (e := expectation T p x).
  assert (Ee : e = expectation T p x) by reflexivity. unfold expectation at 1. unfold expectation in Ee.
  rewrite (sumn_ext T (fun t => p t * (x t - e) ^ 2) (fun t => / INR T * (x t * x t) - 2 * e * (p t * x t) + e * e * / INR T)).
  2: { intros t _. unfold p, Rdiv. ring. }
  rewrite sumn_plus, sumn_minus, !sumn_scale, sumn_const, <- Ee. rewrite sample_S_eq. unfold gl_data, emp_cov, x. field. exact H0.
Qed.

(** * The exact graphical lasso *)
(** An iteration that no longer moves is at a solution. *)
Theorem glasso_fixed_point eigh p rho alpha S Z U st :
  (forall n K, symmetric n K -> exists d Q, eigh n K = Some (d, Q) /\ eigen_decomposition n K d Q) ->
  0 < rho -> 0 <= alpha -> symmetric p S -> symmetric p Z -> symmetric p U ->
  gl_step eigh p rho alpha S Z U = Ok st -> mat_eq p (gl_Th st) (gl_Z st) -> mat_eq p (gl_Z st) Z ->
  exists W, glasso_solution p S alpha (gl_Th st) W.
Proof.
  intros HE Hr Ha HS HZ HU E E1 E2. destruct (gl_step_spec eigh p rho alpha S Z U HE Hr Ha HS HZ HU) as (st' & Ti & E' & H).
  rewrite E in E'. injection E' as <-. exists Ti. destruct H.
  assert (EU : forall i j, (i < p)%nat -> (j < p)%nat -> Ti i j = S i j + rho * gl_U st i j).
  { intros i j Hi Hj. rewrite sp_first by auto. pose proof (sp_split i j) as Es. rewrite (E1 i j), <- (E2 i j) by auto. rewrite (E1 i j) in Es by auto. f_equal. f_equal. lra. }
  constructor; auto.
  - intros i j _ _. apply sp_sym.
  - intros i Hi. rewrite EU by auto. destruct (sp_sub i i Hi Hi) as [G _]. rewrite G by reflexivity. ring.
  - intros i j Hi Hj Hn. rewrite EU by auto. destruct (sp_sub i j Hi Hj) as [_ G]. destruct (G Hn) as [G1 _].
    replace (S i j + rho * gl_U st i j - S i j) with (rho * gl_U st i j) by ring. rewrite Rabs_mult, (Rabs_right rho) by lra.
    apply (Rmult_le_compat_l rho) in G1; [|lra]. replace (rho * (alpha / rho)) with alpha in G1 by (field; lra). exact G1.
  - intros i j Hi Hj Hn Hq. rewrite EU by auto. destruct (sp_sub i j Hi Hj) as [_ G]. destruct (G Hn) as (_ & G2 & _). rewrite G2; [field; lra|]. rewrite <- E1; auto.
  - intros i j Hi Hj Hn Hq. rewrite EU by auto. destruct (sp_sub i j Hi Hj) as [_ G]. destruct (G Hn) as (_ & _ & G3). rewrite G3; [field; lra|]. rewrite <- E1; auto.
Qed.

(** Every iteration approaches every solution. *)
Theorem glasso_progress eigh p rho alpha S Z U st P W :
  (forall n K, symmetric n K -> exists d Q, eigh n K = Some (d, Q) /\ eigen_decomposition n K d Q) ->
  0 < rho -> 0 <= alpha -> symmetric p S -> symmetric p Z -> symmetric p U ->
  gl_step eigh p rho alpha S Z U = Ok st -> glasso_solution p S alpha P W ->
  dist2 p (gl_Z st) P + dist2 p (gl_U st) (fun i j => (W i j - S i j) / rho) + dist2 p (gl_Th st) Z
    <= dist2 p Z P + dist2 p U (fun i j => (W i j - S i j) / rho).
Proof.
  intros HE Hr Ha HS HZ HU E HP. destruct (gl_step_spec eigh p rho alpha S Z U HE Hr Ha HS HZ HU) as (st' & Ti & E' & H).
  rewrite E in E'. injection E' as <-. exact (stepped_progress p rho alpha S Z U st Ti P W Hr Ha HS H HP).
Qed.
Print Assumptions glasso_progress.

(** The call succeeds whenever the starting point is close enough to a solution; it can only fail
    with RuntimeError. *)
Theorem glasso_converges env T N R_ a c P W R0 : exact_gl_env env -> (0 < N)%nat -> (2 <= T)%nat -> 0 < a ->
  glasso_solution N (sample_S T R_ c) a P W ->
  is_inverse N (fun i j => sample_S T R_ c i j + a * delta i j) R0 ->
  dist2 N R0 P + dist2 N W (sample_S T R_ c) <= 199 / 100000000 * INR N ->
  exists r, sparse_precision_glasso env 2 T N R_ (GlNum a) c = Ok r.
Proof.
  rewrite sample_S_eq. intros HX HN HT Ha HP HR HV. unfold sparse_precision_glasso. cbn [Nat.eqb negb]. destruct (Nat.ltb_spec T 2) as [|_]; [lia|].
  cbn [gl_choose]. destruct (Rleb_spec a 0) as [|_]; [lra|]. cbn [bind].
  destruct (admm_converges env HX N (emp_cov T (gl_data T R_ c)) HN (fun i j _ _ => emp_cov_sym T _ i j) (emp_cov_psd T N _) a 199 (1 / 10000) P W R0 Ha) as ([[cov Q] it] & Er);
    [lra|lia|exact HP|exact HR| |].
  - eapply Rle_trans; [exact HV|]. right. replace (INR 199) with 199 by (simpl; lra). field.
  - unfold gl_fit. change 200%nat with (S 199). rewrite Er. cbn [bind]. eexists. reflexivity.
Qed.
Theorem glasso_errors env T N R_ a c e : exact_gl_env env -> (0 < N)%nat -> (2 <= T)%nat -> 0 < a ->
  sparse_precision_glasso env 2 T N R_ (GlNum a) c = Err e -> e = RuntimeError.
Proof.
  intros HX HN HT Ha E. unfold sparse_precision_glasso in E. cbn [Nat.eqb negb] in E. destruct (Nat.ltb_spec T 2) as [|_]; [lia|].
  cbn [gl_choose] in E. destruct (Rleb_spec a 0) as [|_]; [lra|]. cbn [bind] in E.
  destruct (gl_fit env N (emp_cov T (gl_data T R_ c)) a) as [[[cov P] it]|e'] eqn:F; [discriminate|]. cbn [bind] in E. injection E as ->.
  exact (admm_error env HX N _ HN (fun i j _ _ => emp_cov_sym T _ i j) (emp_cov_psd T N _) a 1 _ _ e Rlt_0_1 Ha F).
Qed.
Theorem glasso_refusals env ndim T N R_ al c : ndim <> 2%nat \/ (T < 2)%nat \/ al = GlBad \/ (exists a, al = GlNum a /\ a <= 0) ->
  sparse_precision_glasso env ndim T N R_ al c = Err ValueError.
Proof.
  intros H. unfold sparse_precision_glasso. destruct (Nat.eqb_spec ndim 2) as [En|En]; [|reflexivity]. cbn [negb].
  destruct (Nat.ltb_spec T 2) as [|HT]; [reflexivity|]. destruct H as [H|[H|[->|(a & -> & Ha)]]]; [lia|lia|reflexivity|].
  cbn [gl_choose]. destruct (Rleb_spec a 0) as [_|G]; [reflexivity|lra].
Qed.

(** * Small penalties *)
Theorem glasso_small_penalty env T N R_ a c R0 : exact_gl_env env -> (0 < N)%nat -> (2 <= T)%nat -> 0 < a ->
  a * (INR N + sqrt (INR N)) <= 1 / 10000 * sqrt (INR N) ->
  is_inverse N (fun i j => sample_S T R_ c i j + a * delta i j) R0 ->
  exists cov P, sparse_precision_glasso env 2 T N R_ (GlNum a) c = Ok (cov, P) /\
    (forall i j, (i < N)%nat -> (j < N)%nat -> Rabs (P i j - R0 i j) <= a * sqrt (INR N)) /\
    gl_fit env N (sample_S T R_ c) a = Ok (cov, P, 1%nat).
Proof.
  rewrite sample_S_eq. intros HX HN HT Ha Hs HR. unfold sparse_precision_glasso. cbn [Nat.eqb negb]. destruct (Nat.ltb_spec T 2) as [|_]; [lia|].
  cbn [gl_choose]. destruct (Rleb_spec a 0) as [|_]; [lra|]. cbn [bind].
  destruct (admm_ridge env HX N (emp_cov T (gl_data T R_ c)) HN (fun i j _ _ => emp_cov_sym T _ i j) (emp_cov_psd T N _) a (1 / 10000) 200 R0 Ha) as (cov & P & E & G);
    [lra|lia|exact Hs|exact HR|].
  exists cov, P. unfold gl_fit. rewrite E. cbn [bind]. auto.
Qed.
Print Assumptions glasso_small_penalty.

(** Two assets, two observations: the exact graphical lasso has a zero where the call returns more
    than 1000 in absolute value. *)
Definition sparse_data : mat := fun t i => if Nat.eqb t i then 1 / 100 else 1 / 1000.
Lemma sparse_data_S i j : (i < 2)%nat -> (j < 2)%nat -> sample_S 2 sparse_data true i j = if Nat.eqb i j then 505 / 10000000 else 1 / 100000.
Proof.
  intros Hi Hj. rewrite sample_S_eq. unfold gl_data, emp_cov, sparse_data. destruct i as [|[|]], j as [|[|]]; try lia; cbn; lra.
Qed.
Definition sparse_ridge : mat := fun i j =>
  let d := (905 / 10000000) * (905 / 10000000) - 1 / 100000 * (1 / 100000) in if Nat.eqb i j then (905 / 10000000) / d else - (1 / 100000) / d.
Lemma sparse_ridge_inverse : is_inverse 2 (fun i j => sample_S 2 sparse_data true i j + 4 / 100000 * delta i j) sparse_ridge.
Proof.
  intros i j Hi Hj. unfold mmul. cbn [sumn]. rewrite !sparse_data_S by lia. unfold sparse_ridge, delta.
  destruct i as [|[|]], j as [|[|]]; try lia; cbn [Nat.eqb]; split; lra.
Qed.
Theorem glasso_sparse_refuted : exists T N (R_ : mat) a P W, glasso_solution N (sample_S T R_ true) a P W /\ P 0%nat 1%nat = 0 /\
  forall env, exact_gl_env env -> exists cov Q, sparse_precision_glasso env 2 T N R_ (GlNum a) true = Ok (cov, Q) /\ Q 0%nat 1%nat < -1000.
Proof.
  exists 2%nat, 2%nat, sparse_data, (4 / 100000), (fun i j => delta i j / (505 / 10000000)), (fun i j => delta i j * (505 / 10000000)). split; [|split].
  - constructor.
    + intros i j _ _. rewrite delta_sym. reflexivity.
    + intros x (i & Hi & Hx). unfold quad. cbn [sumn]. unfold delta. cbn [Nat.eqb]. destruct i as [|[|]]; [| |lia]; nra.
    + intros i j Hi Hj. unfold mmul. cbn [sumn]. unfold delta. destruct i as [|[|]], j as [|[|]]; try lia; cbn [Nat.eqb]; split; lra.
    + intros i Hi. rewrite sparse_data_S by lia. unfold delta. rewrite Nat.eqb_refl. lra.
    + intros i j Hi Hj Hn. rewrite sparse_data_S by lia. apply Nat.eqb_neq in Hn. unfold delta. rewrite Hn.
      unfold Rabs. destruct (Rcase_abs _); lra.
    + intros i j Hi Hj Hn G. apply Nat.eqb_neq in Hn. unfold delta in G. rewrite Hn in G. lra.
    + intros i j Hi Hj Hn G. apply Nat.eqb_neq in Hn. unfold delta in G. rewrite Hn in G. lra.
  - unfold delta. cbn [Nat.eqb]. lra.
  - intros env HX.
    assert (Hq : 14142 / 10000 <= sqrt (INR 2) <= 14143 / 10000).
    { change (INR 2) with 2. split; [rewrite <- (sqrt_square (14142 / 10000)) by lra; apply sqrt_le_1_alt; lra|].
      rewrite <- (sqrt_square (14143 / 10000)) by lra. apply sqrt_le_1_alt; lra. }
    destruct (glasso_small_penalty env 2 2 sparse_data (4 / 100000) true sparse_ridge HX) as (cov & Q & E & G & _); try lia; try lra.
    + change (INR 2) with 2 in *. lra.
    + exact sparse_ridge_inverse.
    + exists cov, Q. split; [exact E|]. specialize (G 0%nat 1%nat ltac:(lia) ltac:(lia)).
      assert (B : sparse_ridge 0%nat 1%nat < -1100) by (unfold sparse_ridge; cbn [Nat.eqb]; lra).
      unfold Rabs in G. destruct (Rcase_abs _); lra.
Qed.
Print Assumptions glasso_sparse_refuted.

(** * Automatic penalty *)
Theorem glasso_folds T : (2 <= T)%nat -> let K := Nat.min 5 T in
  (forall t, (t < T)%nat -> exists f, (f < K)%nat /\ In t (valid_rows T K f) /\
     forall g, (g < K)%nat -> (In t (valid_rows T K g) <-> g = f) /\ (In t (train_rows T K g) <-> g <> f)) /\
  (forall f, (f < K)%nat -> valid_rows T K f <> [] /\ train_rows T K f <> [] /\
     NoDup (valid_rows T K f) /\ NoDup (train_rows T K f)).
Proof.
  intros HT K. assert (HK : (2 <= K)%nat /\ (K <= T)%nat) by (unfold K; lia). split.
  - intros t Ht. exists (t mod K)%nat.
    assert (Hin : forall g, In t (valid_rows T K g) <-> g = (t mod K)%nat).
    { intros g. unfold valid_rows. rewrite filter_In, in_seq, Nat.eqb_eq. split; [intros [_ G]; auto|intros ->; split; [lia|reflexivity]]. }
    split; [apply Nat.mod_upper_bound; lia|]. split; [apply Hin; reflexivity|]. intros g Hg. split; [apply Hin|].
    unfold train_rows. rewrite filter_In, in_seq, Bool.negb_true_iff, Nat.eqb_neq. split; [intros [_ G]; auto|intros G; split; [lia|auto]].
  - intros f Hf. split; [apply valid_nonempty; lia|]. split; [apply train_nonempty; lia|]. split; apply NoDup_filter, seq_NoDup.
Qed.

Theorem glasso_auto env T N R_ c r : sparse_precision_glasso env 2 T N R_ GlAuto c = Ok r ->
  let X := gl_data T R_ c in
  exists amax k, (k <= 4)%nat /\ 1 / 1000000 <= amax /\
    (forall i j, (i < N)%nat -> (j < N)%nat -> i <> j -> Rabs (sample_S T R_ c i j) <= amax) /\
    (amax = 1 / 1000000 \/ exists i j, (i < N)%nat /\ (j < N)%nat /\ i <> j /\ amax = Rabs (sample_S T R_ c i j)) /\
    let grid := fun k => amax / sqrt 10 ^ k in
    sparse_precision_glasso env 2 T N R_ (GlNum (grid k)) c = Ok r /\ amax / 100 <= grid k <= amax /\
    exists m, cv_mean env T N X (grid k) m /\
      (forall l, (l <= 4)%nat -> exists ml, cv_mean env T N X (grid l) ml /\ ml <= m + 1 / 100000000) /\
      (forall l, (l <= 4)%nat -> grid k < grid l -> exists ml, cv_mean env T N X (grid l) ml /\ ml < m).
Proof.
  rewrite sample_S_eq. intros E X. destruct (glasso_choice _ _ _ _ _ _ _ E) as (HT & a & Ha & Ea & E').
  destruct (gl_choose_auto env T N X a HT Ea) as ((k & Hk & ->) & m & M1 & M2 & M3).
  exists (gl_alpha_max N (emp_cov T X)), k. split; [exact Hk|]. unfold gl_alpha_max in *. set (S := emp_cov T X) in *.
  split; [apply Rmax_r|]. split. { intros i j Hi Hj Hn. eapply Rle_trans; [apply (max_offdiag_ge N S i j Hi Hj Hn)|apply Rmax_l]. }
  split.
  { destruct (Rle_dec (max_offdiag N S) (1 / 1000000)) as [L|L]; [left; apply Rmax_right; exact L|]. right. rewrite Rmax_left by lra.
    destruct (max_offdiag_in N S) as [Z|G]; [lra|exact G]. }
  cbv zeta. split; [exact E'|]. split.
  { pose proof (grid_pow_bounds k Hk) as [G1 G2]. assert (HP : 0 < Rmax (max_offdiag N S) (1 / 1000000)) by (eapply Rlt_le_trans; [|apply Rmax_r]; lra).
    set (am := Rmax (max_offdiag N S) (1 / 1000000)) in *. assert (Hq : 0 < sqrt 10 ^ k) by lra. unfold Rdiv. split.
    - apply Rmult_le_compat_l; [lra|]. apply Rinv_le_contravar; assumption.
    - rewrite <- (Rmult_1_r am) at 2. apply Rmult_le_compat_l; [lra|]. rewrite <- Rinv_1. apply Rinv_le_contravar; lra. }
  exists m. split; [exact M1|]. split; [exact M2|exact M3].
Qed.
Print Assumptions glasso_auto.

(** * Shifts of the returns *)
(** With centring, adding a constant to an asset's returns changes nothing. *)
Theorem glasso_shift env ndim T N R_ al (k : vec) : (0 < T)%nat ->
  sparse_precision_glasso env ndim T N (fun t i => R_ t i + k i) al false = sparse_precision_glasso env ndim T N R_ al false.
Proof.
  intros HT. unfold sparse_precision_glasso, gl_data. replace (center T (fun t i => R_ t i + k i)) with (center T R_); [reflexivity|].
  extensionality t. extensionality i. unfold center. rewrite sumn_plus, sumn_const. field. apply not_0_INR. lia.
Qed.

(** * Instances *)
Example ex_gl_env : exact_gl_env (best_gl_env (fun _ _ => 0)).
Proof. apply best_gl_env_exact. Qed.
(** A successful call: the data of [glasso_sparse_refuted]. *)
Example ex_gl_call : exists cov Q, sparse_precision_glasso (best_gl_env (fun _ _ => 0)) 2 2 2 sparse_data (GlNum (4 / 100000)) true = Ok (cov, Q).
Proof.
  assert (Hq : 14142 / 10000 <= sqrt (INR 2)) by (change (INR 2) with 2; rewrite <- (sqrt_square (14142 / 10000)) by lra; apply sqrt_le_1_alt; lra).
  destruct (glasso_small_penalty (best_gl_env (fun _ _ => 0)) 2 2 sparse_data (4 / 100000) true sparse_ridge ex_gl_env) as (cov & Q & E & _); try lia; try lra.
  - change (INR 2) with 2 in *. lra.
  - exact sparse_ridge_inverse.
  - eauto.
Qed.
(** Starting close enough to a solution ([glasso_converges]): uncorrelated data, [S = I/2]. *)
Definition unit_data : mat := fun t i => delta t i.
Lemma unit_data_S i j : (i < 2)%nat -> (j < 2)%nat -> sample_S 2 unit_data true i j = delta i j / 2.
Proof. intros Hi Hj. rewrite sample_S_eq. unfold gl_data, emp_cov, unit_data, delta. destruct i as [|[|]], j as [|[|]]; try lia; cbn; lra. Qed.
Example ex_gl_converges : let a := 1 / 10000 in let R0 : mat := fun i j => delta i j / (1 / 2 + a) in
  glasso_solution 2 (sample_S 2 unit_data true) a (fun i j => 2 * delta i j) (fun i j => delta i j / 2) /\
  is_inverse 2 (fun i j => sample_S 2 unit_data true i j + a * delta i j) R0 /\
  dist2 2 R0 (fun i j => 2 * delta i j) + dist2 2 (fun i j => delta i j / 2) (sample_S 2 unit_data true) <= 199 / 100000000 * INR 2.
Proof.
  cbv zeta. split; [|split].
  - constructor.
    + intros i j _ _. rewrite delta_sym. reflexivity.
    + intros x (i & Hi & Hx). unfold quad. cbn [sumn]. unfold delta. cbn [Nat.eqb]. destruct i as [|[|]]; [| |lia]; nra.
    + intros i j Hi Hj. unfold mmul. cbn [sumn]. unfold delta. destruct i as [|[|]], j as [|[|]]; try lia; cbn [Nat.eqb]; split; lra.
    + intros i Hi. rewrite unit_data_S by lia. reflexivity.
    + intros i j Hi Hj _. rewrite unit_data_S by lia. rewrite Rminus_diag_eq, Rabs_R0 by reflexivity. lra.
    + intros i j Hi Hj Hn G. apply Nat.eqb_neq in Hn. unfold delta in G. rewrite Hn in G. lra.
    + intros i j Hi Hj Hn G. apply Nat.eqb_neq in Hn. unfold delta in G. rewrite Hn in G. lra.
  - intros i j Hi Hj. unfold mmul. cbn [sumn]. rewrite !unit_data_S by lia. unfold delta. destruct i as [|[|]], j as [|[|]]; try lia; cbn [Nat.eqb]; split; lra.
  - unfold dist2. cbn [sumn]. rewrite !unit_data_S by lia. unfold delta. cbn [Nat.eqb]. change (INR 2) with 2. lra.
Qed.
