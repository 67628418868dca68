(** Lemmas about the Black-Litterman model. *)
From Coq Require Import Psatz ZArith.
From Verif Require Import RBase QpBase OptModel OptSpec ExistSpec OptProofs7 OptProofs8 NiwModel BlModel BlSpec.
From Verif Require MomSpec MomProofs MomProofs3.
Open Scope R_scope.
Open Scope list_scope.

Definition pt (k : nat) (P : mat) (x : vec) : vec := fun j => sumn k (fun a => P a j * x a).

Lemma dot_pt n k P w x : dot n w (pt k P x) = dot k (mv n P w) x.
Proof.
  unfold dot, pt, mv, dot.
  rewrite (sumn_ext n (fun i => w i * sumn k (fun a => P a i * x a)) (fun i => sumn k (fun a => P a i * w i * x a))) by (intros; rewrite <- sumn_scale; apply sumn_ext; intros; ring).
  rewrite sumn_swap. apply sumn_ext. intros a Ha. rewrite <- sumn_scale_r. reflexivity.
Qed.

Lemma mv_ext' n A B x y i : (forall j, (j < n)%nat -> A i j = B i j) -> (forall j, (j < n)%nat -> x j = y j) -> mv n A x i = mv n B y i.
Proof. intros. unfold mv. apply dot_ext; auto. Qed.

Definition bl_A (n : nat) (ts om P : mat) : mat := fun a b => sumn n (fun i => sumn n (fun j => P a i * ts i j * P b j)) + om a b.

Lemma mv_bl_A n k ts om P x a : mv k (bl_A n ts om P) x a = dot n (P a) (mv n ts (pt k P x)) + mv k om x a.
Proof.
  unfold mv at 1, bl_A, dot.
  rewrite (sumn_ext k _ (fun b => sumn n (fun i => sumn n (fun j => P a i * ts i j * (P b j * x b))) + om a b * x b)).
  2: { intros b Hb. rewrite Rmult_plus_distr_r. f_equal. rewrite <- sumn_scale_r. apply sumn_ext. intros i Hi. rewrite <- sumn_scale_r. apply sumn_ext. intros; ring. }
  rewrite sumn_plus. f_equal. rewrite sumn_swap. apply sumn_ext. intros i Hi. rewrite sumn_swap. unfold mv, dot, pt. rewrite <- sumn_scale. apply sumn_ext. intros j Hj.
  rewrite <- !sumn_scale. apply sumn_ext. intros; ring.
Qed.

Lemma bl_A_symmetric n k ts om P : symmetric n ts -> symmetric k om -> symmetric k (bl_A n ts om P).
Proof.
  intros Ht Ho a b Ha Hb. unfold bl_A. rewrite (Ho a b Ha Hb). f_equal. rewrite sumn_swap. apply sumn_ext. intros i Hi. apply sumn_ext. intros j Hj.
  rewrite (Ht j i Hj Hi). ring.
Qed.

Lemma quad_bl_A n k ts om P x : quad k (bl_A n ts om P) x = quad n ts (pt k P x) + quad k om x.
Proof.
  rewrite !quad_mv. rewrite (dot_ext k x _ x (fun a => mv n P (mv n ts (pt k P x)) a + mv k om x a)); auto.
  - rewrite dot_plus_r. f_equal. rewrite dot_comm, <- dot_pt. apply dot_comm.
  - intros a Ha. apply mv_bl_A.
Qed.

Lemma pd_zero n M x : positive_definite n M -> quad n M x = 0 -> forall i, (i < n)%nat -> x i = 0.
Proof. intros H E i Hi. destruct (Req_dec (x i) 0) as [|Hx]; auto. exfalso. specialize (H x (ex_intro _ i (conj Hi Hx))). lra. Qed.

Lemma pd_psd n M : positive_definite n M -> psd n M.
Proof.
  intros H x. destruct (Classical_Prop.classic (exists i, (i < n)%nat /\ x i <> 0)) as [E|E]; [apply Rlt_le, H; auto|].
  assert (Z : forall i, (i < n)%nat -> x i = 0) by (intros i Hi; destruct (Req_dec (x i) 0); auto; exfalso; eauto).
  rewrite quad_mv. unfold dot. rewrite sumn_0; [lra|]. intros i Hi. rewrite (Z i Hi). ring.
Qed.

Lemma bl_A_pd n k ts om P : psd n ts -> positive_definite k om -> positive_definite k (bl_A n ts om P).
Proof. intros Ht Ho x Hx. rewrite quad_bl_A. specialize (Ht (pt k P x)). specialize (Ho x Hx). lra. Qed.

Lemma pd_injective k A x y : positive_definite k A -> (forall a, (a < k)%nat -> mv k A x a = mv k A y a) -> forall a, (a < k)%nat -> x a = y a.
Proof.
  intros H E a Ha. assert (x a - y a = 0); [|lra]. apply (pd_zero k A (fun a => x a - y a) H); auto.
  rewrite quad_mv. unfold dot. apply sumn_0. intros b Hb. assert (mv k A (fun a => x a - y a) b = 0); [|rewrite H0; ring].
  unfold mv. rewrite dot_minus_r. specialize (E b Hb). unfold mv in E. lra.
Qed.

Lemma inverse_symmetric n A B : MomSpec.is_inverse n A B -> symmetric n A -> symmetric n B.
Proof.
  intros HI HS i j Hi Hj. pose proof (MomProofs3.inverse_dot_sym n A B (delta i) (delta j) HI HS) as E.
  rewrite !dot_delta_l in E by auto. unfold mv in E. rewrite (dot_comm n (B i)), (dot_comm n (B j)), !dot_delta_l in E by auto. exact E.
Qed.

(** * The posterior mean *)
Section Mean.
  Variables (n k : nat) (sigma om P : mat) (tau : R) (pi Q x : vec) (Si Oi : mat).
  Hypothesis Hs : symmetric n sigma.
  Hypothesis Hp : psd n sigma.
  Hypothesis Ho : symmetric k om.
  Hypothesis Hop : psd k om.
  Hypothesis Ht : 0 < tau.
  Let ts : mat := fun i j => tau * sigma i j.
  Hypothesis Hx : forall a, (a < k)%nat -> mv k (bl_A n ts om P) x a = Q a - dot n (P a) pi.
  Let mu : vec := fun i => pi i + mv n ts (pt k P x) i.

  Lemma bl_residual a : (a < k)%nat -> Q a - dot n (P a) mu = mv k om x a.
  Proof.
    intros Ha. specialize (Hx a Ha). rewrite mv_bl_A in Hx. unfold mu. rewrite dot_plus_r. lra.
  Qed.

  Lemma mv_ts v i : mv n ts v i = tau * mv n sigma v i.
  Proof. unfold mv, dot, ts. rewrite <- sumn_scale. apply sumn_ext. intros; ring. Qed.

  Hypothesis HSi : MomSpec.is_inverse n sigma Si.
  Hypothesis HOi : MomSpec.is_inverse k om Oi.

  Lemma inv_swap m A B : MomSpec.is_inverse m A B -> MomSpec.is_inverse m B A.
  Proof. intros H i j Hi Hj. destruct (H i j Hi Hj). auto. Qed.

  Let loss := bl_loss n Si tau pi k Oi (fun m a => Q a - dot n (P a) m).
  Lemma bl_loss_split m : loss m =
    loss mu + quad n Si (fun i => m i - mu i) / tau + quad k Oi (mv n P (fun i => m i - mu i)).
  Proof.
    pose proof (inverse_symmetric n sigma Si HSi Hs) as SS. pose proof (inverse_symmetric k om Oi HOi Ho) as SO.
    set (d := fun i => m i - mu i). unfold loss, bl_loss.
    assert (E1 : quad n Si (fun i => m i - pi i) = quad n Si (fun i => mu i - pi i) + 2 * dot n d (mv n Si (fun i => mu i - pi i)) + quad n Si d).
    { rewrite (quad_ext n Si Si (fun i => m i - pi i) (fun i => (mu i - pi i) + 1 * d i)); auto; [|intros; unfold d; ring].
      rewrite quad_seg by auto. ring. }
    assert (E2 : quad k Oi (fun a => Q a - dot n (P a) m) = quad k Oi (fun a => Q a - dot n (P a) mu) - 2 * dot k (mv n P d) (mv k Oi (fun a => Q a - dot n (P a) mu)) + quad k Oi (mv n P d)).
    { rewrite (quad_ext k Oi Oi (fun a => Q a - dot n (P a) m) (fun a => (Q a - dot n (P a) mu) + (-1) * mv n P d a)); auto.
      - rewrite quad_seg by auto. ring.
      - intros a Ha. unfold d, mv. rewrite dot_minus_r. ring. }
    rewrite E1, E2.
    assert (E3 : dot n d (mv n Si (fun i => mu i - pi i)) = tau * dot n d (pt k P x)).
    { rewrite <- dot_scale_r. apply dot_ext; auto. intros i Hi.
      rewrite (mv_ext' n Si Si (fun i => mu i - pi i) (mv n sigma (fun j => tau * pt k P x j)) i); auto.
      - rewrite (MomProofs.mv_inverse n Si sigma); auto. apply inv_swap; auto.
      - intros j Hj. unfold mu. rewrite mv_ts, MomProofs3.mv_scale. ring. }
    assert (E4 : dot k (mv n P d) (mv k Oi (fun a => Q a - dot n (P a) mu)) = dot k (mv n P d) x).
    { apply dot_ext; auto. intros a Ha. rewrite (mv_ext' k Oi Oi (fun a => Q a - dot n (P a) mu) (mv k om x) a); auto.
      - apply MomProofs.mv_inverse; auto. apply inv_swap; auto.
      - intros b Hb. apply bl_residual; auto. }
    rewrite E3, E4, dot_pt. field. lra.
  Qed.

  Lemma bl_loss_min m : loss mu <= loss m.
  Proof.
    rewrite (bl_loss_split m). pose proof (MomProofs.inverse_psd n sigma Si HSi Hp (fun i => m i - mu i)).
    pose proof (MomProofs.inverse_psd k om Oi HOi Hop (mv n P (fun i => m i - mu i))).
    assert (0 <= quad n Si (fun i => m i - mu i) / tau) by (unfold Rdiv; apply Rmult_le_pos; [lra|apply Rlt_le, Rinv_0_lt_compat; lra]). lra.
  Qed.

  Lemma bl_loss_unique m : positive_definite n sigma -> loss m <= loss mu ->
    forall i, (i < n)%nat -> m i = mu i.
  Proof.
    intros Hpd H i Hi. rewrite (bl_loss_split m) in H. pose proof (MomProofs.inverse_psd n sigma Si HSi Hp (fun i => m i - mu i)) as A.
    pose proof (MomProofs.inverse_psd k om Oi HOi Hop (mv n P (fun i => m i - mu i))).
    assert (0 < / tau) by (apply Rinv_0_lt_compat; lra).
    assert (Z : quad n Si (fun i => m i - mu i) = 0).
    { unfold Rdiv in H. assert (0 <= quad n Si (fun i => m i - mu i) * / tau) by (apply Rmult_le_pos; lra). assert (quad n Si (fun i => m i - mu i) * / tau = 0) by lra.
      apply Rmult_integral in H3 as [|]; lra. }
    rewrite (MomProofs.inverse_quad n sigma Si) in Z by auto.
    pose proof (pd_zero n sigma _ Hpd Z) as Z'.
    pose proof (MomProofs.mv_inverse n sigma Si (fun i => m i - mu i) i HSi Hi) as E.
    cut (m i - mu i = 0); [lra|]. rewrite <- E. unfold mv at 1. unfold dot at 1. apply sumn_0. intros j Hj. rewrite (Z' j Hj). ring.
  Qed.
End Mean.

(** * The posterior covariance *)
Section Cov.
  Variables (n k : nat) (ts om P Y : mat).
  Hypothesis Hs : symmetric n ts.
  Hypothesis Hp : psd n ts.
  Hypothesis Ho : symmetric k om.
  Hypothesis Hop : psd k om.
  Hypothesis HY : forall a j, (a < k)%nat -> (j < n)%nat -> mv k (bl_A n ts om P) (fun b => Y b j) a = sumn n (fun i => P a i * ts i j).
  Definition bl_mid (i j : nat) : R := sumn n (fun l => ts i l * sumn k (fun a => P a l * Y a j)).

  Lemma mid_dot i j : (i < n)%nat -> (j < n)%nat -> bl_mid i j = dot k (mv k (bl_A n ts om P) (fun a => Y a i)) (fun a => Y a j).
  Proof.
    intros Hi Hj. unfold bl_mid. change (sumn n (fun l => ts i l * sumn k (fun a => P a l * Y a j))) with (dot n (ts i) (pt k P (fun a => Y a j))).
    rewrite dot_pt. apply dot_ext; auto. intros a Ha. rewrite HY by auto. unfold mv, dot. apply sumn_ext. intros l Hl. rewrite (Hs i l Hi Hl). reflexivity.
  Qed.

  Lemma mid_symmetric : symmetric n bl_mid.
  Proof.
    intros i j Hi Hj. rewrite !mid_dot by auto. rewrite (dot_comm k (mv k _ (fun a => Y a i))), (dot_comm k (mv k _ (fun a => Y a j))). apply MomProofs3.dot_mv_sym, bl_A_symmetric; auto.
  Qed.

  (** [u = Y w] solves [A u = P ts w]. *)
  Lemma Y_solves w a : (a < k)%nat -> mv k (bl_A n ts om P) (fun b => mv n Y w b) a = dot n (P a) (mv n ts w).
  Proof.
    intros Ha. unfold mv at 1, dot at 1.
    rewrite (sumn_ext k _ (fun b => sumn n (fun j => bl_A n ts om P a b * Y b j * w j))) by (intros b Hb; unfold mv, dot; rewrite <- sumn_scale; apply sumn_ext; intros; ring).
    rewrite sumn_swap. rewrite (sumn_ext n _ (fun j => sumn n (fun i => P a i * ts i j) * w j)).
    - unfold dot, mv, dot. rewrite (sumn_ext n (fun j => sumn n (fun i => P a i * ts i j) * w j) (fun j => sumn n (fun i => P a i * ts i j * w j))) by (intros; rewrite <- sumn_scale_r; reflexivity).
      rewrite sumn_swap. apply sumn_ext. intros i Hi. rewrite <- sumn_scale. apply sumn_ext. intros; ring.
    - intros j Hj. rewrite <- (HY a j Ha Hj). unfold mv, dot. rewrite <- sumn_scale_r. reflexivity.
  Qed.

  Lemma mv_mid w i : (i < n)%nat -> mv n bl_mid w i = mv n ts (pt k P (mv n Y w)) i.
  Proof.
    intros Hi. unfold mv at 1, dot, bl_mid.
    rewrite (sumn_ext n _ (fun j => sumn n (fun l => ts i l * (sumn k (fun a => P a l * Y a j) * w j)))) by (intros; rewrite <- sumn_scale_r; apply sumn_ext; intros; ring).
    rewrite sumn_swap. unfold mv at 1, dot. apply sumn_ext. intros l Hl. rewrite sumn_scale. f_equal.
    unfold pt. rewrite (sumn_ext n _ (fun j => sumn k (fun a => P a l * Y a j * w j))) by (intros; rewrite <- sumn_scale_r; reflexivity).
    rewrite sumn_swap. apply sumn_ext. intros a Ha. unfold mv, dot. rewrite <- sumn_scale. apply sumn_ext. intros; ring.
  Qed.

  Lemma quad_mid w : quad n bl_mid w = quad k (bl_A n ts om P) (mv n Y w).
  Proof.
    rewrite quad_mv. rewrite (dot_ext n w _ w (mv n ts (pt k P (mv n Y w)))); auto; [|intros; apply mv_mid; auto].
    rewrite MomProofs3.dot_mv_sym by auto. rewrite dot_comm, dot_pt, quad_mv, dot_comm. apply dot_ext; auto.
    intros a Ha. symmetry. rewrite (Y_solves w a Ha : mv k (bl_A n ts om P) (mv n Y w) a = _). reflexivity.
  Qed.

  (** What is left of the prior uncertainty is a sum of two non-negative parts. *)
  Lemma quad_left w : quad n (fun i j => ts i j - bl_mid i j) w = quad n ts (fun i => w i - pt k P (mv n Y w) i) + quad k om (mv n Y w).
  Proof.
    assert (E : quad n (fun i j => ts i j - bl_mid i j) w = quad n ts w - quad n bl_mid w).
    { rewrite (quad_ext n _ (fun i j => ts i j + (-1) * bl_mid i j) w w) by (intros; auto; ring). rewrite (quad_plus n ts (fun i j => (-1) * bl_mid i j)), quad_scale. ring. }
    rewrite E, quad_mid. rewrite MomProofs3.quad_minus by auto. 
    assert (F : dot n w (mv n ts (pt k P (mv n Y w))) = quad k (bl_A n ts om P) (mv n Y w)).
    { rewrite <- quad_mid, quad_mv. apply dot_ext; auto. intros i Hi. symmetry. apply mv_mid; auto. }
    rewrite F. rewrite quad_bl_A. ring.
  Qed.
End Cov.
