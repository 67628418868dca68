(** The graphical lasso loop: what it returns and when it stops. *)
From Coq Require Import List Lia Lra.
Import ListNotations.
From Verif Require Import Err RBase QpBase MomModel MomSpec MomProofs GlModel GlSpec EigLib GlProofs.
From Verif Require ExistSpec BlProofs OptProofs3 LinLib.
Open Scope R_scope.

(** * Norms *)
Lemma frob2_nonneg p A : 0 <= frob2 p A.
Proof. apply sumn_nonneg. intros i _. apply sumn_nonneg. intros j _. nra. Qed.
Lemma frob2_entry p A i j : (i < p)%nat -> (j < p)%nat -> A i j * A i j <= frob2 p A.
Proof.
  intros Hi Hj. unfold frob2. rewrite <- (sumn_delta p i (fun i => A i j * A i j) Hi). apply sumn_le. intros k Hk.
  unfold delta. destruct (Nat.eqb_spec k i) as [-> | N].
  - rewrite Rmult_1_l. rewrite <- (sumn_delta p j (fun j => A i j * A i j) Hj). apply sumn_le. intros l _.
    unfold delta. destruct (l =? j)%nat; nra.
  - rewrite Rmult_0_l. apply sumn_nonneg. intros l _. nra.
Qed.
Lemma fro_entry p A i j : (i < p)%nat -> (j < p)%nat -> Rabs (A i j) <= fro p A.
Proof.
  intros Hi Hj. unfold fro. rewrite <- sqrt_Rsqr_abs. apply sqrt_le_1_alt. unfold Rsqr. apply frob2_entry; auto.
Qed.
Lemma fro_le p A x : 0 <= x -> frob2 p A <= x * x -> fro p A <= x.
Proof. intros Hx H. unfold fro. rewrite <- (sqrt_square x Hx). apply sqrt_le_1_alt. exact H. Qed.
Lemma fro_sq p A : fro p A * fro p A = frob2 p A.
Proof. apply sqrt_sqrt. apply frob2_nonneg. Qed.
Lemma fro_nonneg p A : 0 <= fro p A.
Proof. apply sqrt_pos. Qed.
Lemma frob2_bound p A c : 0 <= c -> (forall i j, (i < p)%nat -> (j < p)%nat -> Rabs (A i j) <= c) -> frob2 p A <= (c * INR p) * (c * INR p).
Proof.
  intros Hc H. apply Rle_trans with (sumn p (fun _ => sumn p (fun _ => c * c))).
  - apply (sum2_le p (fun i j => A i j * A i j) (fun _ _ => c * c)). intros i j Hi Hj. specialize (H i j Hi Hj).
    assert (- c <= A i j <= c) by (unfold Rabs in H; destruct (Rcase_abs (A i j)); lra). nra.
  - rewrite !sumn_const. right. ring.
Qed.
Lemma frob2_triangle p A B x y : 0 < x -> 0 < y -> frob2 p A <= x * x -> frob2 p B <= y * y ->
  frob2 p (fun i j => A i j + B i j) <= (x + y) * (x + y).
Proof.
  intros Hx Hy HA HB. set (t := y / x). assert (Ht : 0 < t) by (apply Rdiv_lt_0_compat; assumption).
  apply Rle_trans with ((1 + t) * frob2 p A + (1 + / t) * frob2 p B).
  - unfold frob2. rewrite <- !sum2_scale, <- sum2_plus. apply (sum2_le p (fun i j => (A i j + B i j) * (A i j + B i j))). intros i j _ _.
    assert (0 <= (t * A i j - B i j) * (t * A i j - B i j) / t) by (apply Rmult_le_pos; [apply Rle_0_sqr|left; apply Rinv_0_lt_compat; exact Ht]).
    replace ((t * A i j - B i j) * (t * A i j - B i j) / t) with (t * (A i j * A i j) - 2 * A i j * B i j + / t * (B i j * B i j)) in H by (field; lra). lra.
  - assert (Hti : 0 < / t) by (apply Rinv_0_lt_compat; exact Ht).
    apply Rle_trans with ((1 + t) * (x * x) + (1 + / t) * (y * y)); [nra|]. right. unfold t. field. lra.
Qed.
Lemma dist2_frob2 p A B : dist2 p A B = frob2 p (fun i j => A i j - B i j).
Proof. apply sum2_ext. intros i j _ _. ring. Qed.

(** * The loop *)
Lemma gl_loop_spec eigh p rho alpha tol S fuel : exact_eigh eigh -> 0 < rho -> 0 <= alpha -> symmetric p S ->
  forall it Z U st it', symmetric p Z -> symmetric p U -> gl_loop eigh p rho alpha tol S fuel it Z U = Ok (st, it') ->
  exists Zp Up Ti, stepped p rho alpha S Zp Up st Ti /\ gl_done p tol rho Zp st = true /\ (it < it' <= it + fuel)%nat.
Proof.
  intros HE Hr Ha HS. induction fuel as [|f IH]; intros it Z U st it' HZ HU E; [discriminate|]. cbn [gl_loop] in E.
  destruct (gl_step_spec eigh p rho alpha S Z U HE Hr Ha HS HZ HU) as (s & Ti & Es & Hs). rewrite Es in E. cbn [bind] in E.
  destruct (gl_done p tol rho Z s) eqn:D.
  - injection E as -> <-. exists Z, U, Ti. split; [exact Hs|]. split; [exact D|]. lia.
  - destruct (IH _ _ _ _ _ (sp_Zsym _ _ _ _ _ _ _ _ Hs) (sp_Usym _ _ _ _ _ _ _ _ Hs) E) as (Zp & Up & Ti' & A & B & C).
    exists Zp, Up, Ti'. split; [exact A|]. split; [exact B|]. lia.
Qed.

Lemma gl_loop_error eigh p rho alpha tol S fuel : exact_eigh eigh -> 0 < rho -> 0 <= alpha -> symmetric p S ->
  forall it Z U e, symmetric p Z -> symmetric p U -> gl_loop eigh p rho alpha tol S fuel it Z U = Err e -> e = RuntimeError.
Proof.
  intros HE Hr Ha HS. induction fuel as [|f IH]; intros it Z U e HZ HU E; cbn [gl_loop] in E; [congruence|].
  destruct (gl_step_spec eigh p rho alpha S Z U HE Hr Ha HS HZ HU) as (s & Ti & Es & Hs). rewrite Es in E. cbn [bind] in E.
  destruct (gl_done p tol rho Z s); [discriminate|].
  exact (IH _ _ _ _ (sp_Zsym _ _ _ _ _ _ _ _ Hs) (sp_Usym _ _ _ _ _ _ _ _ Hs) E).
Qed.

(** An iteration that does not stop has moved by more than the tolerance. *)
Lemma not_done_moves p tol Z st : 0 <= tol -> gl_done p tol 1 Z st = false ->
  tol * tol * INR p < dist2 p (gl_Th st) (gl_Z st) + dist2 p (gl_Z st) Z.
Proof.
  intros Ht H. unfold gl_done in H. apply Bool.andb_false_iff in H.
  assert (Hp : 0 <= tol * sqrt (INR p)) by (apply Rmult_le_pos; [exact Ht|apply sqrt_pos]).
  assert (Hsq : tol * sqrt (INR p) * (tol * sqrt (INR p)) = tol * tol * INR p).
  { replace (tol * sqrt (INR p) * (tol * sqrt (INR p))) with (tol * tol * (sqrt (INR p) * sqrt (INR p))) by ring. rewrite sqrt_sqrt; [reflexivity|apply pos_INR]. }
  rewrite !dist2_frob2. destruct H as [H|H]; apply Rleb_false in H.
  - assert (G : tol * sqrt (INR p) < fro p (fun i j => gl_Th st i j - gl_Z st i j)).
    { eapply Rle_lt_trans; [|exact H]. unfold gl_eps_pri. assert (0 <= tol * Rmax (fro p (gl_Th st)) (fro p (gl_Z st))); [|lra].
      apply Rmult_le_pos; [exact Ht|]. eapply Rle_trans; [apply fro_nonneg|apply Rmax_l]. }
    pose proof (frob2_nonneg p (fun i j => gl_Z st i j - Z i j)). pose proof (fro_sq p (fun i j => gl_Th st i j - gl_Z st i j)). nra.
  - assert (G : tol * sqrt (INR p) < fro p (fun i j => 1 * (gl_Z st i j - Z i j))).
    { eapply Rle_lt_trans; [|exact H]. unfold gl_eps_dual. assert (0 <= tol * fro p (fun i j => 1 * gl_U st i j)); [|lra].
      apply Rmult_le_pos; [exact Ht|apply fro_nonneg]. }
    pose proof (frob2_nonneg p (fun i j => gl_Th st i j - gl_Z st i j)). pose proof (fro_sq p (fun i j => 1 * (gl_Z st i j - Z i j))) as E.
    assert (E2 : frob2 p (fun i j => 1 * (gl_Z st i j - Z i j)) = frob2 p (fun i j => gl_Z st i j - Z i j)) by (apply sum2_ext; intros i j _ _; ring).
    rewrite E2 in E. nra.
Qed.

(** With [U] a subgradient at [Z], both residuals are paid for. *)
Lemma stepped_progress2 p rho alpha S Z U st Ti P W : 0 < rho -> 0 <= alpha -> symmetric p S -> stepped p rho alpha S Z U st Ti ->
  glasso_solution p S alpha P W -> subgrad p (alpha / rho) Z U ->
  dist2 p (gl_Z st) P + dist2 p (gl_U st) (dual_of rho S W) + (dist2 p (gl_Th st) (gl_Z st) + dist2 p (gl_Z st) Z)
    <= dist2 p Z P + dist2 p U (dual_of rho S W).
Proof.
  intros Hr Ha HS H HP HG. pose proof (stepped_progress p rho alpha S Z U st Ti P W Hr Ha HS H HP) as G.
  assert (Hc : 0 <= alpha / rho) by (apply Rmult_le_pos; [lra|left; apply Rinv_0_lt_compat; exact Hr]).
  assert (M : dist2 p (gl_Th st) (gl_Z st) + dist2 p (gl_Z st) Z <= dist2 p (gl_Th st) Z); [|lra].
  unfold dist2. rewrite <- sum2_plus. apply (sum2_le p (fun i j => (gl_Th st i j - gl_Z st i j) ^ 2 + (gl_Z st i j - Z i j) ^ 2)). intros i j Hi Hj.
  pose proof (subgrad_mono p _ _ _ _ _ Hc (sp_sub _ _ _ _ _ _ _ _ H) HG i j Hi Hj) as Q. pose proof (sp_split _ _ _ _ _ _ _ _ H i j) as E.
  assert (ET : gl_U st i j - U i j = gl_Th st i j - gl_Z st i j) by lra. rewrite ET in Q. nra.
Qed.

Lemma dist2_nonneg p A B : 0 <= dist2 p A B.
Proof. rewrite dist2_frob2. apply frob2_nonneg. Qed.

Lemma gl_loop_stops eigh p alpha tol S P W : exact_eigh eigh -> 0 <= alpha -> symmetric p S -> 0 <= tol ->
  glasso_solution p S alpha P W ->
  forall fuel it Z U, symmetric p Z -> symmetric p U -> subgrad p (alpha / 1) Z U ->
    dist2 p Z P + dist2 p U (dual_of 1 S W) <= INR fuel * (tol * tol * INR p) -> (0 < fuel)%nat ->
    exists r, gl_loop eigh p 1 alpha tol S fuel it Z U = Ok r.
Proof.
  intros HE Ha HS Ht HP. induction fuel as [|f IH]; intros it Z U HZ HU HG HV Hf; [lia|]. cbn [gl_loop].
  destruct (gl_step_spec eigh p 1 alpha S Z U HE Rlt_0_1 Ha HS HZ HU) as (s & Ti & Es & Hs). rewrite Es. cbn [bind].
  destruct (gl_done p tol 1 Z s) eqn:D; [eexists; reflexivity|].
  pose proof (not_done_moves p tol Z s Ht D) as M. pose proof (stepped_progress2 p 1 alpha S Z U s Ti P W Rlt_0_1 Ha HS Hs HP HG) as G.
  rewrite S_INR in HV. pose proof (dist2_nonneg p (gl_Z s) P). pose proof (dist2_nonneg p (gl_U s) (dual_of 1 S W)).
  assert (HV' : dist2 p (gl_Z s) P + dist2 p (gl_U s) (dual_of 1 S W) < INR f * (tol * tol * INR p)) by lra.
  assert (Hf' : (0 < f)%nat). { destruct f; [|lia]. exfalso. change (INR 0) with 0 in HV'. lra. }
  apply IH; auto; try (destruct Hs; assumption). lra.
Qed.

(** * The complete fit *)
Section Fit.
  Variable env : gl_env.
  Hypothesis HX : exact_gl_env env.
  Variables (p : nat) (S : mat).
  Hypothesis Hp : (0 < p)%nat.
  Hypothesis HS : symmetric p S.
  Hypothesis HPS : psd p S.

  Lemma ridge_pd alpha : 0 < alpha -> ExistSpec.positive_definite p (fun i j => S i j + alpha * eye i j).
  Proof.
    intros Ha x (i & Hi & Hx). rewrite quad_plus, quad_scale. specialize (HPS x).
    assert (E : quad p eye x = dot p x x). { rewrite quad_mv. apply dot_ext; [auto|]. intros k Hk. apply mv_delta. exact Hk. }
    rewrite E. pose proof (dot_self_pos p x i Hi Hx). nra.
  Qed.
  Lemma ridge_sym alpha : symmetric p (fun i j => S i j + alpha * eye i j).
  Proof. intros i j Hi Hj. rewrite (HS i j) by auto. unfold eye. rewrite delta_sym. reflexivity. Qed.
  Lemma pd_invertible A : ExistSpec.positive_definite p A -> exists B, is_inverse p A B.
  Proof.
    intros H. apply LinLib.injective_inverse. intros x Hx i Hi.
    destruct (Req_dec (x i) 0) as [|N]; [assumption|]. exfalso. assert (Z : 0 < quad p A x) by (apply H; eauto).
    rewrite quad_mv in Z. unfold dot in Z. rewrite sumn_0 in Z; [lra|]. intros k Hk. rewrite Hx by exact Hk. ring.
  Qed.
  Lemma ridge_inverse alpha : 0 < alpha -> exists R0, ge_inv env p (fun i j => S i j + alpha * eye i j) = Some R0 /\
    is_inverse p (fun i j => S i j + alpha * eye i j) R0 /\ symmetric p R0.
  Proof.
    intros Ha. destruct (pd_invertible _ (ridge_pd alpha Ha)) as (B & HB).
    destruct (ge_inv env p (fun i j => S i j + alpha * eye i j)) as [R0|] eqn:E.
    - exists R0. split; [reflexivity|]. pose proof (xg_inv env HX _ _ _ E) as HR. split; [exact HR|].
      apply (BlProofs.inverse_symmetric p _ _ HR). apply ridge_sym.
    - exfalso. exact (xg_inv_total env HX _ _ _ HB E).
  Qed.

  (** From the last iteration to the returned covariance. *)
  Lemma finish st Zp Up Ti rho alpha : stepped p rho alpha S Zp Up st Ti ->
    exists cov, ensure_psd (ge_eig env) p (match ge_inv env p (gl_Th st) with Some C => C | None => ge_pinv env p (gl_Th st) end) jit = Ok cov /\
      mat_eq p cov Ti.
  Proof.
    intros H. destruct (ge_inv env p (gl_Th st)) as [C|] eqn:E.
    - pose proof (xg_inv env HX _ _ _ E) as HC. pose proof (inverse_unique p _ _ _ HC (sp_inv _ _ _ _ _ _ _ _ H)) as EC.
      destruct (ensure_psd_id (ge_eig env) p C (xg_eig env HX) Hp) as (cov & Ec & Hc).
      + apply (inverse_psd p (gl_Th st) C HC). apply pd_psd. exact (sp_pd _ _ _ _ _ _ _ _ H).
      + exists cov. split; [exact Ec|]. intros i j Hi Hj. rewrite Hc. unfold symmetrise. rewrite (EC i j), (EC j i) by auto.
        rewrite (sp_isym _ _ _ _ _ _ _ _ H j i) by auto. field.
    - exfalso. exact (xg_inv_total env HX _ _ _ (sp_inv _ _ _ _ _ _ _ _ H) E).
  Qed.

  Lemma zero_sym : symmetric p (fun _ _ => 0).
  Proof. intros i j _ _. reflexivity. Qed.

  Lemma admm_spec alpha rho max_iter tol cov P it : 0 < rho -> 0 < alpha ->
    graphical_lasso_admm env p S alpha rho max_iter tol = Ok (cov, P, it) ->
    exists st Zp Up Ti, P = gl_Th st /\ stepped p rho alpha S Zp Up st Ti /\ gl_done p tol rho Zp st = true /\
      mat_eq p cov Ti /\ (1 <= it <= max_iter)%nat.
  Proof.
    intros Hr Ha E. unfold graphical_lasso_admm in E. destruct (ridge_inverse alpha Ha) as (R0 & E0 & _ & S0). rewrite E0 in E.
    apply bind_ok in E as ([st it'] & E1 & E). apply bind_ok in E as (c & E2 & E). injection E as -> <- ->.
    destruct (gl_loop_spec _ _ _ _ _ _ _ (xg_eigh env HX) Hr (Rlt_le _ _ Ha) HS _ _ _ _ _ S0 zero_sym E1) as (Zp & Up & Ti & A & B & C).
    destruct (finish st Zp Up Ti rho alpha A) as (c' & Ec & Hc). rewrite Ec in E2. injection E2 as ->.
    exists st, Zp, Up, Ti. split; [reflexivity|]. split; [exact A|]. split; [exact B|]. split; [exact Hc|]. lia.
  Qed.

  (** Only non-convergence can fail. *)
  Lemma admm_error alpha rho max_iter tol e : 0 < rho -> 0 < alpha ->
    graphical_lasso_admm env p S alpha rho max_iter tol = Err e -> e = RuntimeError.
  Proof.
    intros Hr Ha E. unfold graphical_lasso_admm in E. destruct (ridge_inverse alpha Ha) as (R0 & E0 & _ & S0). rewrite E0 in E.
    destruct (gl_loop (ge_eigh env) p rho alpha tol S max_iter 0 R0 (fun _ _ => 0)) as [[st it']|e'] eqn:E1.
    - cbn [bind] in E. destruct (gl_loop_spec _ _ _ _ _ _ _ (xg_eigh env HX) Hr (Rlt_le _ _ Ha) HS _ _ _ _ _ S0 zero_sym E1) as (Zp & Up & Ti & A & B & C).
      destruct (finish st Zp Up Ti rho alpha A) as (c' & Ec & Hc). rewrite Ec in E. discriminate.
    - cbn [bind] in E. injection E as ->. eapply gl_loop_error; [exact (xg_eigh env HX)|exact Hr|exact (Rlt_le _ _ Ha)|exact HS|exact S0|exact zero_sym|exact E1].
  Qed.

  (** Enough iterations always converge. *)
  Lemma admm_converges alpha k tol P W R0 : 0 < alpha -> 0 <= tol -> (0 < k)%nat -> glasso_solution p S alpha P W ->
    is_inverse p (fun i j => S i j + alpha * eye i j) R0 ->
    dist2 p R0 P + dist2 p W S <= INR k * (tol * tol * INR p) ->
    exists r, graphical_lasso_admm env p S alpha 1 (Datatypes.S k) tol = Ok r.
  Proof.
    intros Ha Ht Hk HP HR HV. destruct (graphical_lasso_admm env p S alpha 1 (Datatypes.S k) tol) as [r|e] eqn:E; [eauto|]. exfalso.
    pose proof (admm_error alpha 1 _ tol e Rlt_0_1 Ha E) as ->.
    unfold graphical_lasso_admm in E. destruct (ridge_inverse alpha Ha) as (Th0 & E0 & H0 & S0). rewrite E0 in E.
    cbn [gl_loop] in E. destruct (gl_step_spec (ge_eigh env) p 1 alpha S Th0 (fun _ _ => 0) (xg_eigh env HX) Rlt_0_1 (Rlt_le _ _ Ha) HS S0 zero_sym) as (s & Ti & Es & Hs).
    rewrite Es in E. cbn [bind] in E. destruct (gl_done p tol 1 Th0 s) eqn:D.
    - cbn [bind] in E. destruct (finish s _ _ Ti 1 alpha Hs) as (c' & Ec & Hc). rewrite Ec in E. discriminate.
    - destruct (gl_loop_stops (ge_eigh env) p alpha tol S P W (xg_eigh env HX) (Rlt_le _ _ Ha) HS Ht HP k 1 (gl_Z s) (gl_U s)) as (r & Er);
        try (destruct Hs; assumption); [|].
      + pose proof (stepped_progress p 1 alpha S Th0 (fun _ _ => 0) s Ti P W Rlt_0_1 (Rlt_le _ _ Ha) HS Hs HP) as G.
        pose proof (dist2_nonneg p (gl_Th s) Th0). eapply Rle_trans; [|exact HV].
        assert (E1 : dist2 p Th0 P = dist2 p R0 P).
        { apply sum2_ext. intros i j Hi Hj. rewrite (inverse_unique p _ _ _ H0 HR i j Hi Hj). reflexivity. }
        assert (E2 : dist2 p (fun _ _ => 0) (dual_of 1 S W) = dist2 p W S).
        { apply sum2_ext. intros i j Hi Hj. unfold dual_of. field. }
        rewrite E1, E2 in G. lra.
      + rewrite Er in E. cbn [bind] in E. destruct r as [st it]. 
        destruct (gl_loop_spec _ _ _ _ _ _ _ (xg_eigh env HX) Rlt_0_1 (Rlt_le _ _ Ha) HS _ _ _ _ _ (sp_Zsym _ _ _ _ _ _ _ _ Hs) (sp_Usym _ _ _ _ _ _ _ _ Hs) Er) as (Zp & Up & Ti' & A & B & C).
        destruct (finish st Zp Up Ti' 1 alpha A) as (c' & Ec & Hc). rewrite Ec in E. discriminate.
  Qed.

  (** How far the returned covariance can be from the sample one. *)
  Lemma admm_fit alpha tol max_iter cov P it : 0 < alpha -> 0 <= tol ->
    graphical_lasso_admm env p S alpha 1 max_iter tol = Ok (cov, P, it) ->
    forall i j, (i < p)%nat -> (j < p)%nat ->
      Rabs (cov i j - S i j) <= (if Nat.eqb i j then 0 else alpha) + tol * (sqrt (INR p) + alpha * INR p).
  Proof.
    intros Ha Ht E i j Hi Hj. destruct (admm_spec alpha 1 max_iter tol cov P it Rlt_0_1 Ha E) as (st & Zp & Up & Ti & _ & H & D & HC & _).
    rewrite (HC i j Hi Hj), (sp_first _ _ _ _ _ _ _ _ H i j Hi Hj). pose proof (sp_split _ _ _ _ _ _ _ _ H i j) as Es.
    replace (S i j + 1 * (gl_Th st i j - Zp i j + Up i j) - S i j) with (gl_U st i j + 1 * (gl_Z st i j - Zp i j)) by lra.
    eapply Rle_trans; [apply Rabs_triang|]. pose proof (sp_sub _ _ _ _ _ _ _ _ H) as HG. apply Rplus_le_compat.
    - destruct (HG i j Hi Hj) as [G1 G2]. destruct (Nat.eqb_spec i j) as [E1|N]; [rewrite (G1 E1), Rabs_R0; lra|].
      destruct (G2 N) as [G3 _]. lra.
    - apply Bool.andb_true_iff in D as [_ D]. apply Rleb_true in D.
      eapply Rle_trans; [apply (fro_entry p (fun i j => 1 * (gl_Z st i j - Zp i j)) i j Hi Hj)|]. eapply Rle_trans; [exact D|].
      unfold gl_eps_dual. rewrite <- Rmult_plus_distr_l. apply Rmult_le_compat_l; [exact Ht|]. apply Rplus_le_compat_l.
      apply fro_le; [apply Rmult_le_pos; [lra|apply pos_INR]|]. apply frob2_bound; [lra|]. intros a b Hga Hgb. rewrite Rmult_1_l.
      destruct (HG a b Hga Hgb) as [G1 G2]. destruct (Nat.eq_dec a b) as [E1|N]; [rewrite (G1 E1), Rabs_R0; lra|].
      destruct (G2 N) as [G3 _]. lra.
  Qed.

  (** A small penalty stops at the first iteration, next to the ridge inverse. *)
  Lemma admm_ridge alpha tol max_iter R0 : 0 < alpha -> 0 <= tol -> (0 < max_iter)%nat ->
    alpha * (INR p + sqrt (INR p)) <= tol * sqrt (INR p) ->
    is_inverse p (fun i j => S i j + alpha * eye i j) R0 ->
    exists cov P, graphical_lasso_admm env p S alpha 1 max_iter tol = Ok (cov, P, 1%nat) /\
      forall i j, (i < p)%nat -> (j < p)%nat -> Rabs (P i j - R0 i j) <= alpha * sqrt (INR p).
  Proof.
    intros Ha Ht Hm Hs HR. unfold graphical_lasso_admm. destruct (ridge_inverse alpha Ha) as (Th0 & E0 & H0 & S0). rewrite E0.
    destruct max_iter as [|m]; [lia|]. cbn [gl_loop].
    destruct (gl_step_spec (ge_eigh env) p 1 alpha S Th0 (fun _ _ => 0) (xg_eigh env HX) Rlt_0_1 (Rlt_le _ _ Ha) HS S0 zero_sym) as (s & Ti & Es & H).
    rewrite Es. cbn [bind].
    assert (Hp0 : 0 < INR p) by (apply lt_0_INR; exact Hp). assert (Hq : 0 < sqrt (INR p)) by (apply sqrt_lt_R0; exact Hp0).
    set (D := fun i j => gl_Th s i j - Th0 i j).
    assert (HD : frob2 p D <= (alpha * sqrt (INR p)) * (alpha * sqrt (INR p))).
    { assert (PB : psd p (fun i j => S i j + alpha * eye i j)) by (apply pd_psd, ridge_pd; exact Ha).
      assert (HI0 : is_inverse p Th0 (fun i j => S i j + alpha * eye i j)) by (intros i j Hi Hj; destruct (H0 i j Hi Hj); split; assumption).
      pose proof (inverse_antitone p (gl_Th s) Ti Th0 _ (sp_inv _ _ _ _ _ _ _ _ H) HI0 (fun i j _ _ => sp_sym _ _ _ _ _ _ _ _ H i j) S0
        (ridge_sym alpha) (pd_psd _ _ (sp_ipd _ _ _ _ _ _ _ _ H)) PB) as G.
      assert (E : ip p (fun i j => Ti i j - (S i j + alpha * eye i j)) D = frob2 p D - alpha * sumn p (fun i => D i i)).
      { unfold ip, frob2. rewrite (sum2_ext p _ (fun i j => D i j * D i j + (- alpha) * (delta i j * D i j))).
        - rewrite sum2_plus, sum2_scale. rewrite (sumn_ext p (fun i => sumn p (fun j => delta i j * D i j)) (fun i => D i i)); [ring|].
          intros i Hi. apply sumn_delta_r. exact Hi.
        - intros i j Hi Hj. rewrite (sp_first _ _ _ _ _ _ _ _ H i j Hi Hj). unfold D, eye. ring. }
      change (ip p (fun i j => Ti i j - (S i j + alpha * eye i j)) D <= 0) in G. rewrite E in G.
      pose proof (OptProofs3.cauchy p (fun _ => 1) (fun i => D i i)) as CS. unfold dot in CS. rewrite sumn_const in CS.
      rewrite (sumn_ext p (fun i => 1 * D i i) (fun i => D i i)) in CS by (intros; ring).
      assert (T : sumn p (fun i => D i i * D i i) <= frob2 p D).
      { unfold frob2. apply sumn_le. intros i Hi. rewrite <- (sumn_delta p i (fun j => D i j * D i j) Hi). apply sumn_le. intros j _.
        unfold delta. destruct (j =? i)%nat; nra. }
      set (t := sumn p (fun i => D i i)) in *. set (f := frob2 p D) in *. pose proof (frob2_nonneg p D) as Hf. fold f in Hf.
      replace (alpha * sqrt (INR p) * (alpha * sqrt (INR p))) with (alpha * alpha * INR p) by (rewrite <- (sqrt_sqrt (INR p)) at 1 by lra; ring).
      assert (CS2 : t * t <= INR p * f) by nra. assert (G2 : f <= alpha * t) by lra.
      destruct (Rle_lt_or_eq_dec _ _ Hf) as [Pf|Zf]; [|rewrite <- Zf; nra].
      assert (0 < t) by nra. assert (f * f <= alpha * alpha * (INR p * f)) by nra. nra. }
    assert (HG := sp_sub _ _ _ _ _ _ _ _ H).
    assert (HU : frob2 p (fun i j => gl_Th s i j - gl_Z s i j) <= alpha * INR p * (alpha * INR p)).
    { apply frob2_bound; [lra|]. intros i j Hi Hj. replace (gl_Th s i j - gl_Z s i j) with (gl_U s i j) by (pose proof (sp_split _ _ _ _ _ _ _ _ H i j); lra).
      destruct (HG i j Hi Hj) as [G1 G2]. destruct (Nat.eq_dec i j) as [E1|N]; [rewrite (G1 E1), Rabs_R0; lra|]. destruct (G2 N) as [G3 _]. lra. }
    assert (Hap : 0 < alpha * INR p) by (apply Rmult_lt_0_compat; assumption). assert (Haq : 0 < alpha * sqrt (INR p)) by (apply Rmult_lt_0_compat; assumption).
    assert (D1 : gl_done p tol 1 Th0 s = true).
    { unfold gl_done. apply Bool.andb_true_iff. split; apply Rleb_true.
      - apply Rle_trans with (alpha * INR p); [apply fro_le; [lra|exact HU]|]. unfold gl_eps_pri.
        assert (0 <= tol * Rmax (fro p (gl_Th s)) (fro p (gl_Z s))) by (apply Rmult_le_pos; [exact Ht|eapply Rle_trans; [apply fro_nonneg|apply Rmax_l]]). lra.
      - apply Rle_trans with (alpha * INR p + alpha * sqrt (INR p)).
        + apply fro_le; [lra|]. eapply Rle_trans; [|apply (frob2_triangle p (fun i j => gl_Z s i j - gl_Th s i j) D _ _ Hap Haq)].
          * right. apply sum2_ext. intros i j _ _. unfold D. ring.
          * eapply Rle_trans; [|exact HU]. right. apply sum2_ext. intros i j _ _. ring.
          * exact HD.
        + unfold gl_eps_dual. assert (0 <= tol * fro p (fun i j => 1 * gl_U s i j)) by (apply Rmult_le_pos; [exact Ht|apply fro_nonneg]). lra. }
    rewrite D1. cbn [bind]. destruct (finish s _ _ Ti 1 alpha H) as (c & Ec & Hc). rewrite Ec. cbn [bind].
    exists c, (gl_Th s). split; [reflexivity|]. intros i j Hi Hj. rewrite <- (inverse_unique p _ _ _ H0 HR i j Hi Hj).
    eapply Rle_trans; [apply (fro_entry p D i j Hi Hj)|]. apply fro_le; [lra|exact HD].
  Qed.
End Fit.
