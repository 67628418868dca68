(** Lemmas about the Bayesian posterior model. *)
From Coq Require Import Psatz ZArith.
From Verif Require Import RBase QpBase OptModel OptSpec OptProofs3 OptProofs7 OptProofs8 ExistSpec NiwModel NiwSpec ProjProofs.
From Verif Require ProjModel.
Open Scope R_scope.

Lemma trunc_INR k : ProjModel.trunc (INR k) = Z.of_nat k.
Proof.
  unfold ProjModel.trunc. destruct (Rleb_spec 0 (INR k)) as [H|H]; [|pose proof (pos_INR k); lra].
  rewrite INR_IZR_INZ. symmetry. assert (E := base_Int_part (IZR (Z.of_nat k))). destruct E as [E1 E2].
  apply le_IZR in E1. assert (IZR (Z.of_nat k) < IZR (Int_part (IZR (Z.of_nat k)) + 1)) by (rewrite plus_IZR; lra).
  apply lt_IZR in H0. lia.
Qed.
Lemma trunc_IZR z : (0 <= z)%Z -> ProjModel.trunc (IZR z) = z.
Proof. intros H. rewrite <- (Z2Nat.id z H) at 1. rewrite <- INR_IZR_INZ, trunc_INR, Z2Nat.id; auto. Qed.
Lemma IZR_nat k : IZR (Z.of_nat k) = INR k.
Proof. symmetry. apply INR_IZR_INZ. Qed.

Lemma niw_init_ok chol mu sg t0 nu0 o : niw_init chol mu sg t0 nu0 = Ok o ->
  v_nd mu = 1%nat /\ v_n mu <> 0%nat /\ 0 < t0 /\ 0 <= nu0 /\ m_nd sg = 2%nat /\ m_rows sg = v_n mu /\ m_cols sg = v_n mu /\
  (exists L, cholesky_pd chol (v_n mu) (m_at sg) = Ok L) /\
  exists ix, prior_index mu sg = Ok ix /\
  o = Niw (v_n mu) (v_at mu) (m_at sg) (ProjModel.trunc t0) (ProjModel.trunc nu0) ix None.
Proof.
  unfold niw_init. intros H. apply guard_ok in H as [A1 H]. apply guard_ok in H as [A2 H]. apply bind_ok in H as (ix & A3 & H).
  apply guard_ok in H as [A4 H]. apply guard_ok in H as [A5 H]. apply guard_ok in H as [A6 H]. apply bind_ok in H as (L & A7 & H).
  injection H as <-. apply Nat.eqb_eq in A1. apply Bool.negb_true_iff, Nat.eqb_neq in A2.
  apply andb_prop in A4 as [A4 A4c]. apply andb_prop in A4 as [A4a A4b]. apply Nat.eqb_eq in A4a, A4b, A4c.
  apply Bool.negb_true_iff, Rleb_false in A5. apply Bool.negb_true_iff, Rltb_false in A6.
  repeat (split; [eauto|]). exists ix. auto.
Qed.

Definition post_mu (o : niw) (m : vec) (n : R) : vec := fun i => (IZR (w_t0 o) * w_mu o i + n * m i) / (IZR (w_t0 o) + n).
Definition post_sigma (o : niw) (m : vec) (C : mat) (n : R) : mat :=
  fun i j => (IZR (w_nu0 o) * w_sigma o i j + n * C i j + (w_mu o i - m i) * (w_mu o j - m j) / (1 / n + 1 / IZR (w_t0 o))) / (IZR (w_nu0 o) + n).

Lemma niw_update_ok chol o mu sg n o' p : niw_update chol o mu sg n = Ok (o', p) ->
  w_post o = None /\ v_nd mu = 1%nat /\ v_n mu = w_N o /\ 0 < n /\ m_nd sg = 2%nat /\ m_rows sg = w_N o /\ m_cols sg = w_N o /\
  (exists L, cholesky_pd chol (w_N o) (m_at sg) = Ok L) /\ w_t0 o <> 0%Z /\ 0 < IZR (w_nu0 o) + n /\
  (exists L, cholesky_pd chol (w_N o) (post_sigma o (v_at mu) (m_at sg) n) = Ok L) /\
  p = Params (IZR (w_t0 o) + n) (w_ix o, post_mu o (v_at mu) n) (IZR (w_nu0 o) + n) (w_ix o, post_sigma o (v_at mu) (m_at sg) n) /\
  o' = Niw (w_N o) (w_mu o) (w_sigma o) (w_t0 o) (w_nu0 o) (w_ix o) (Some p).
Proof.
  unfold niw_update. intros H. apply guard_ok in H as [A1 H]. apply guard_ok in H as [A2 H]. apply guard_ok in H as [A3 H].
  apply guard_ok in H as [A4 H]. apply bind_ok in H as (L & A5 & H). apply guard_ok in H as [A6 H]. apply guard_ok in H as [A7 H].
  apply bind_ok in H as (L' & A8 & H). injection H as <- <-.
  destruct (w_post o); [discriminate|]. apply andb_prop in A2 as [A2 A2b]. apply Nat.eqb_eq in A2, A2b.
  apply Bool.negb_true_iff, Rleb_false in A3. apply andb_prop in A4 as [A4 A4c]. apply andb_prop in A4 as [A4a A4b]. apply Nat.eqb_eq in A4a, A4b, A4c.
  apply Bool.negb_true_iff, Z.eqb_neq in A6. apply Bool.negb_true_iff, Rleb_false in A7.
  repeat (split; [eauto|]). reflexivity.
Qed.

Lemma prior_index_unlabelled n m k C : prior_index (VIn None 1 n m) (MIn None 2 k k C) = Ok None.
Proof. reflexivity. Qed.

Lemma cross_weight n t : 0 < n -> 0 < t -> 1 / (1 / n + 1 / t) = n * t / (n + t).
Proof. intros. field. repeat split; lra. Qed.

(** The posterior scale as a sum of three positive parts. *)
Lemma post_sigma_alt o m C n : 0 < n -> 0 < IZR (w_t0 o) -> 0 < IZR (w_nu0 o) + n -> forall i j,
  post_sigma o m C n i j =
   IZR (w_nu0 o) / (IZR (w_nu0 o) + n) * w_sigma o i j + n / (IZR (w_nu0 o) + n) * C i j
   + n * IZR (w_t0 o) / (n + IZR (w_t0 o)) / (IZR (w_nu0 o) + n) * ((w_mu o i - m i) * (w_mu o j - m j)).
Proof. intros. unfold post_sigma. field. repeat split; lra. Qed.

Lemma quad_outer n d x : quad n (fun i j => d i * d j) x = dot n d x * dot n d x.
Proof.
  unfold quad, dot. rewrite <- sumn_scale_r. apply sumn_ext. intros i Hi. rewrite <- sumn_scale. apply sumn_ext. intros; ring.
Qed.

Lemma quad_post_sigma o m C n N x : 0 < n -> 0 < IZR (w_t0 o) -> 0 < IZR (w_nu0 o) + n ->
  quad N (post_sigma o m C n) x =
   IZR (w_nu0 o) / (IZR (w_nu0 o) + n) * quad N (w_sigma o) x + n / (IZR (w_nu0 o) + n) * quad N C x
   + n * IZR (w_t0 o) / (n + IZR (w_t0 o)) / (IZR (w_nu0 o) + n) * (dot N (fun i => w_mu o i - m i) x) ^ 2.
Proof.
  intros H1 H2 H3. rewrite (quad_ext N _ _ x x (fun i j _ _ => post_sigma_alt o m C n H1 H2 H3 i j)) by auto.
  rewrite (quad_plus N (fun i j => IZR (w_nu0 o) / (IZR (w_nu0 o) + n) * w_sigma o i j + n / (IZR (w_nu0 o) + n) * C i j)).
  rewrite (quad_plus N (fun i j => IZR (w_nu0 o) / (IZR (w_nu0 o) + n) * w_sigma o i j)).
  rewrite !quad_scale.
  rewrite (quad_outer N (fun i => w_mu o i - m i)). ring.
Qed.

Lemma post_sigma_psd o m C n N : 0 < n -> 0 < IZR (w_t0 o) -> 0 <= IZR (w_nu0 o) -> psd N (w_sigma o) -> psd N C ->
  psd N (post_sigma o m C n).
Proof.
  intros H1 H2 H3 H4 H5 x. rewrite quad_post_sigma by lra. specialize (H4 x). specialize (H5 x).
  assert (0 < / (IZR (w_nu0 o) + n)) by (apply Rinv_0_lt_compat; lra).
  assert (0 < / (n + IZR (w_t0 o))) by (apply Rinv_0_lt_compat; lra).
  unfold Rdiv.
  assert (0 <= IZR (w_nu0 o) * / (IZR (w_nu0 o) + n)) by (apply Rmult_le_pos; lra).
  assert (0 <= n * / (IZR (w_nu0 o) + n)) by (apply Rmult_le_pos; lra).
  assert (0 <= n * IZR (w_t0 o) * / (n + IZR (w_t0 o)) * / (IZR (w_nu0 o) + n)) by (repeat apply Rmult_le_pos; lra).
  assert (0 <= dot N (fun i => w_mu o i - m i) x ^ 2) by apply pow2_ge_0.
  assert (0 <= IZR (w_nu0 o) * / (IZR (w_nu0 o) + n) * quad N (w_sigma o) x) by (apply Rmult_le_pos; lra).
  assert (0 <= n * / (IZR (w_nu0 o) + n) * quad N C x) by (apply Rmult_le_pos; lra).
  assert (0 <= n * IZR (w_t0 o) * / (n + IZR (w_t0 o)) * / (IZR (w_nu0 o) + n) * dot N (fun i => w_mu o i - m i) x ^ 2) by (apply Rmult_le_pos; lra).
  lra.
Qed.

Lemma cholesky_near chol n M L : exact_chol chol -> cholesky_pd chol n M = Ok L -> nearly_psd n M (1 / 10000000).
Proof.
  intros Hc H. apply cholesky_pd_l in H as (j & Hj & _ & HL); auto. intros x.
  destruct HL as (_ & _ & HL). pose proof (quad_cholesky n _ L x HL) as Q. rewrite quad_jitter, quad_symmetrise' in Q.
  pose proof (dot_self_nonneg n (mv n (transpose L) x)). pose proof (dot_self_nonneg n x). rewrite <- Q in H. nra.
Qed.

(** The sufficient statistics add up. *)
Lemma post_stats o m C n : 0 < n -> 0 < IZR (w_t0 o) -> 0 < IZR (w_nu0 o) + n -> forall i j,
  (IZR (w_nu0 o) + n) * post_sigma o m C n i j + (IZR (w_t0 o) + n) * (post_mu o m n i * post_mu o m n j)
  = IZR (w_nu0 o) * w_sigma o i j + IZR (w_t0 o) * (w_mu o i * w_mu o j) + n * (C i j + m i * m j).
Proof. intros. unfold post_sigma, post_mu. field. repeat split; lra. Qed.

Lemma data_stats X a n i j : (0 < n)%nat ->
  INR n * (data_cov X a n i j + data_mean X a n i * data_mean X a n j) = sumn n (fun t => X (a + t)%nat i * X (a + t)%nat j).
Proof.
  intros Hn. apply lt_0_INR in Hn. unfold data_cov, data_scatter.
  rewrite (sumn_ext n (fun t => (X (a + t)%nat i - data_mean X a n i) * (X (a + t)%nat j - data_mean X a n j))
     (fun t => X (a + t)%nat i * X (a + t)%nat j - data_mean X a n j * X (a + t)%nat i - data_mean X a n i * X (a + t)%nat j + data_mean X a n i * data_mean X a n j)) by (intros; ring).
  rewrite sumn_plus, !sumn_minus, !sumn_scale, sumn_const.
  assert (E : forall k, sumn n (fun t => X (a + t)%nat k) = INR n * data_mean X a n k) by (intros; unfold data_mean; field; lra).
  rewrite !E. field. lra.
Qed.
Lemma data_sum X a n i : (0 < n)%nat -> INR n * data_mean X a n i = sumn n (fun t => X (a + t)%nat i).
Proof. intros Hn. apply lt_0_INR in Hn. unfold data_mean. field. lra. Qed.
Lemma sumn_app n m f : sumn (n + m) f = sumn n f + sumn m (fun k => f (n + k)%nat).
Proof. induction m as [|m IH]; [rewrite Nat.add_0_r; cbn [sumn]; ring|]. rewrite Nat.add_succ_r. cbn [sumn]. rewrite IH. ring. Qed.

Lemma data_cov_psd X a n N : (0 < n)%nat -> psd N (data_cov X a n).
Proof.
  intros Hn. apply lt_0_INR in Hn. intros x.
  rewrite (quad_ext N _ (fun i j => / INR n * sumn n (fun t => (X (a + t)%nat i - data_mean X a n i) * (X (a + t)%nat j - data_mean X a n j))) x x); auto.
  2: intros; unfold data_cov, data_scatter; field; lra.
  rewrite quad_scale. apply Rmult_le_pos; [apply Rlt_le, Rinv_0_lt_compat; auto|].
  apply (gram_psd N n (fun i t => X (a + t)%nat i - data_mean X a n i)).
Qed.

(** * Worst-case variance *)
Lemma quad_V_bound n V y r : 0 <= r -> frobenius_sq n V <= r * r -> quad n V y <= r * dot n y y.
Proof.
  intros Hr HV. pose proof (dot_self_nonneg n y) as Hy. unfold frobenius_sq in HV.
  destruct (Req_dec (dot n y y) 0) as [E|E].
  - assert (Z : forall i, (i < n)%nat -> y i = 0).
    { intros i Hi. unfold dot in E. apply (sumn_nonneg_zero n (fun i => y i * y i)) with (i := i) in E; auto; [nra|]. intros; nra. }
    rewrite E. unfold quad. rewrite (sumn_0 n); [lra|]. intros i Hi. apply sumn_0. intros j Hj. rewrite (Z i Hi). ring.
  - destruct (Req_dec r 0) as [->|Hn].
    + assert (Z : forall i j, (i < n)%nat -> (j < n)%nat -> V i j = 0).
      { intros i j Hi Hj.
        assert (F : sumn n (fun i => sumn n (fun j => V i j * V i j)) = 0).
        { apply Rle_antisym; [lra|]. apply sumn_nonneg. intros a Ha. apply sumn_nonneg. intros b Hb. apply Rle_0_sqr. }
        pose proof (sumn_nonneg_zero n (fun i => sumn n (fun j => V i j * V i j)) (fun i _ => sumn_nonneg n _ (fun j _ => Rle_0_sqr (V i j))) F i Hi) as F1.
        pose proof (sumn_nonneg_zero n (fun j => V i j * V i j) (fun j _ => Rle_0_sqr (V i j)) F1 j Hj) as F2. apply Rsqr_0_uniq. exact F2. }
      unfold quad. rewrite (sumn_0 n); [lra|]. intros i Hi. apply sumn_0. intros j Hj. rewrite (Z i j Hi Hj). ring.
    + set (s := dot n y y / r). assert (Hs : 0 < s) by (apply Rdiv_lt_0_compat; lra).
      assert (Es : s * r = dot n y y) by (unfold s; field; lra). clearbody s.
      apply Rle_trans with (sumn n (fun i => sumn n (fun j => / 2 * (V i j * V i j * s + (y i * y j) * (y i * y j) * / s)))).
      * unfold quad. apply sumn_le. intros i Hi. apply sumn_le. intros j Hj.
        generalize (V i j) as a. intros a. replace (a * y i * y j) with (a * (y i * y j)) by ring. generalize (y i * y j) as b. intros b.
        assert (0 <= (a * s - b) * (a * s - b) * / s) by (apply Rmult_le_pos; [apply Rle_0_sqr|apply Rlt_le, Rinv_0_lt_compat; auto]).
        replace ((a * s - b) * (a * s - b) * / s) with (a * a * s - 2 * (a * b) + b * b * / s) in H by (field; lra). lra.
      * rewrite (sumn_ext n (fun i => sumn n (fun j => / 2 * (V i j * V i j * s + y i * y j * (y i * y j) * / s)))
          (fun i => / 2 * s * sumn n (fun j => V i j * V i j) + (/ 2 * / s * dot n y y) * (y i * y i))).
        2: { intros i Hi. unfold dot. rewrite <- (sumn_scale n (/ 2 * s)), <- (sumn_scale n (/2 * / s)), <- sumn_scale_r, <- sumn_plus. apply sumn_ext. intros; ring. }
        rewrite sumn_plus, !sumn_scale. change (sumn n (fun i => y i * y i)) with (dot n y y).
        assert (/ 2 * / s * dot n y y * dot n y y = / 2 * r * dot n y y) by (rewrite <- Es; field; lra).
        assert (/ 2 * s * (r * r) = / 2 * r * dot n y y) by (rewrite <- Es; field; lra).
        assert (/ 2 * s * sumn n (fun i => sumn n (fun j => V i j * V i j)) <= / 2 * s * (r * r)) by (apply Rmult_le_compat_l; lra).
        lra.
Qed.

Lemma quad_sandwich n L V w : quad n (fun i j => mmul n L (mmul n V (transpose L)) i j) w = quad n V (mv n (transpose L) w).
Proof.
  unfold quad, mmul, transpose, mv, dot.
  rewrite (sumn_ext n (fun i => sumn n (fun j => sumn n (fun k => L i k * sumn n (fun l => V k l * L j l)) * w i * w j))
    (fun i => sumn n (fun k => sumn n (fun l => V k l * (L i k * w i) * sumn n (fun j => L j l * w j))))).
  2: { intros i Hi. rewrite (sumn_ext n _ (fun j => sumn n (fun k => sumn n (fun l => V k l * (L i k * w i) * (L j l * w j))))).
       2: { intros j Hj. rewrite <- !sumn_scale_r. apply sumn_ext. intros k Hk. rewrite <- sumn_scale, <- !sumn_scale_r. apply sumn_ext. intros; ring. }
       rewrite sumn_swap. apply sumn_ext. intros k Hk. rewrite sumn_swap. apply sumn_ext. intros l Hl. rewrite sumn_scale. reflexivity. }
  rewrite sumn_swap. apply sumn_ext. intros k Hk. rewrite sumn_swap. apply sumn_ext. intros l Hl.
  rewrite (sumn_ext n _ (fun i => V k l * ((L i k * w i) * sumn n (fun j => L j l * w j)))) by (intros; ring).
  rewrite sumn_scale, sumn_scale_r. ring.
Qed.

Lemma worst_variance_l n C L M r w : 0 <= r -> (forall i j, (i < n)%nat -> (j < n)%nat -> mmul n L (transpose L) i j = M i j) ->
  worst_variance n C L r w (quad n C w + r * quad n M w).
Proof.
  intros Hr HL. assert (Q := quad_cholesky n M L w HL). set (y := mv n (transpose L) w) in *.
  assert (E : forall V S', (forall i j, (i < n)%nat -> (j < n)%nat -> S' i j = C i j + mmul n L (mmul n V (transpose L)) i j) -> quad n S' w = quad n C w + quad n V y).
  { intros V S' H. rewrite (quad_ext n _ _ w w H) by auto. rewrite (quad_plus n C (fun i j => mmul n L (mmul n V (transpose L)) i j)), quad_sandwich. reflexivity. }
  split.
  - intros S' (V & HV & Hf & HS). rewrite (E V S' HS), Q. pose proof (quad_V_bound n V y r Hr Hf). lra.
  - destruct (Req_dec (dot n y y) 0) as [Z|Z].
    + exists (fun i j => C i j + mmul n L (mmul n (fun _ _ => 0) (transpose L)) i j). split.
      * exists (fun _ _ => 0). split; [intros i j _ _; reflexivity|]. split; auto. unfold frobenius_sq. rewrite sumn_0; [nra|]. intros. apply sumn_0. intros; ring.
      * rewrite (E (fun _ _ => 0)) by auto. rewrite Q, Z. unfold quad at 2. rewrite (sumn_0 n (fun i => sumn n _)); [ring|]. intros. apply sumn_0. intros; ring.
    + set (V := fun i j => r / dot n y y * (y i * y j)).
      exists (fun i j => C i j + mmul n L (mmul n V (transpose L)) i j). split.
      * exists V. split; [intros i j _ _; unfold V; ring|]. split; auto.
        apply Req_le. unfold frobenius_sq, V.
        rewrite (sumn_ext n _ (fun i => (r / dot n y y) * (r / dot n y y) * dot n y y * (y i * y i))).
        2: { intros i Hi. unfold dot at 5. rewrite <- sumn_scale, <- sumn_scale_r. apply sumn_ext. intros; ring. }
        rewrite sumn_scale. change (sumn n (fun i => y i * y i)) with (dot n y y). field. auto.
      * rewrite (E V) by auto. rewrite Q. unfold V. rewrite (quad_scale n (r / dot n y y) (fun i j => y i * y j)), quad_outer. field. auto.
Qed.
