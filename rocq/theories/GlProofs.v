(** Proofs about the graphical lasso iteration. *)
From Coq Require Import List Lia Lra.
Import ListNotations.
From Verif Require Import Err RBase QpBase MomModel MomSpec MomProofs GlModel GlSpec EigLib.
From Verif Require ExistSpec BlProofs OptProofs3.
Open Scope R_scope.

(** * Conjugation [Q diag(d) Q'] *)
Definition conj (n : nat) (Q : mat) (d : vec) : mat := fun i j => sumn n (fun k => Q i k * d k * Q j k).

Section Conj.
  Variables (n : nat) (Q : mat).
  Hypothesis HQ : forall i j, (i < n)%nat -> (j < n)%nat -> sumn n (fun k => Q k i * Q k j) = delta i j.
  Lemma HQ' a b : (a < n)%nat -> (b < n)%nat -> sumn n (fun k => Q a k * Q b k) = delta a b.
  Proof. intros Ha Hb. apply (complete n (fun k a => Q a k)); auto. Qed.
  Lemma conj_sym d i j : conj n Q d i j = conj n Q d j i.
  Proof. apply sumn_ext. intros; ring. Qed.
  Lemma conj_mul d e i j : (i < n)%nat -> (j < n)%nat -> mmul n (conj n Q d) (conj n Q e) i j = conj n Q (fun k => d k * e k) i j.
  Proof.
    intros Hi Hj. unfold mmul, conj.
    rewrite (sumn_ext n _ (fun k => sumn n (fun a => sumn n (fun b => Q i a * d a * Q k a * (Q k b * e b * Q j b))))).
    2: { intros k Hk. rewrite <- sumn_scale_r. apply sumn_ext. intros a Ha. rewrite <- sumn_scale. reflexivity. }
    rewrite sumn_swap. apply sumn_ext. intros a Ha. rewrite sumn_swap.
    rewrite (sumn_ext n _ (fun b => delta b a * (Q i a * d a * e b * Q j b))).
    2: { intros b Hb. rewrite <- (HQ b a) by auto. rewrite <- sumn_scale_r. apply sumn_ext. intros k Hk. ring. }
    rewrite sumn_delta by exact Ha. ring.
  Qed.
  Lemma conj_one i j : (i < n)%nat -> (j < n)%nat -> conj n Q (fun _ => 1) i j = delta i j.
  Proof. intros Hi Hj. rewrite <- HQ' by auto. apply sumn_ext. intros; ring. Qed.
  Lemma conj_quad d x : quad n (conj n Q d) x = sumn n (fun k => d k * (dot n (fun i => Q i k) x) ^ 2).
  Proof.
    unfold quad, conj. rewrite (sumn_ext n _ (fun i => sumn n (fun k => sumn n (fun j => Q i k * d k * Q j k * x i * x j)))).
    2: { intros i Hi. rewrite sumn_swap. apply sumn_ext. intros j Hj. rewrite <- !sumn_scale_r. reflexivity. }
    rewrite sumn_swap. apply sumn_ext. intros k Hk. simpl. unfold dot. rewrite Rmult_1_r, <- !sumn_scale_r, <- sumn_scale.
    apply sumn_ext. intros i Hi. rewrite <- !sumn_scale. apply sumn_ext. intros j Hj. ring.
  Qed.
  Lemma conj_inverse d : (forall k, (k < n)%nat -> d k <> 0) -> is_inverse n (conj n Q d) (conj n Q (fun k => / d k)).
  Proof.
    intros Hd i j Hi Hj. rewrite !conj_mul by auto. split; rewrite <- (conj_one i j) by auto; apply sumn_ext; intros k Hk; field; auto.
  Qed.
  Lemma basis_nonzero x : (forall k, (k < n)%nat -> dot n (fun i => Q i k) x = 0) -> forall i, (i < n)%nat -> x i = 0.
  Proof.
    intros H i Hi. assert (E : sumn n (fun k => Q i k * dot n (fun a => Q a k) x) = x i).
    { unfold dot. rewrite (sumn_ext n _ (fun k => sumn n (fun a => Q i k * (Q a k * x a)))) by (intros; rewrite sumn_scale; reflexivity).
      rewrite sumn_swap. rewrite (sumn_ext n _ (fun a => delta i a * x a)).
      - apply sumn_delta_r. exact Hi.
      - intros a Ha. rewrite <- HQ' by auto. rewrite <- sumn_scale_r. apply sumn_ext. intros; ring. }
    rewrite <- E. apply sumn_0. intros k Hk. rewrite H by exact Hk. ring.
  Qed.
  Lemma conj_pd d : (forall k, (k < n)%nat -> 0 < d k) -> ExistSpec.positive_definite n (conj n Q d).
  Proof.
    intros Hd x (i & Hi & Hx). rewrite conj_quad.
    assert (P : 0 <= sumn n (fun k => d k * dot n (fun i => Q i k) x ^ 2)).
    { apply sumn_nonneg. intros k Hk. apply Rmult_le_pos; [left; auto|]. rewrite <- Rsqr_pow2. apply Rle_0_sqr. }
    destruct (Rle_lt_or_eq_dec _ _ P) as [H|H]; [exact H|]. exfalso. apply Hx. apply basis_nonzero; auto. intros k Hk.
    assert (Z : d k * dot n (fun i => Q i k) x ^ 2 = 0).
    { apply (sumn_nonneg_zero n (fun k => d k * dot n (fun i => Q i k) x ^ 2)); auto.
      intros a Ha. apply Rmult_le_pos; [left; auto|]. rewrite <- Rsqr_pow2. apply Rle_0_sqr. }
    specialize (Hd k Hk). destruct (Rmult_integral _ _ Z) as [Z'|Z']; [lra|]. nra.
  Qed.
End Conj.

Lemma pd_psd n A : ExistSpec.positive_definite n A -> psd n A.
Proof.
  intros H x. destruct (Classical_Prop.classic (exists i, (i < n)%nat /\ x i <> 0)) as [E|N]; [left; auto|].
  right. symmetry. rewrite quad_mv. unfold dot. apply sumn_0. intros i Hi.
  assert (x i = 0); [|rewrite H0; ring]. destruct (Req_dec (x i) 0); [assumption|]. exfalso. eauto.
Qed.
Lemma pd_ext n A B : mat_eq n A B -> ExistSpec.positive_definite n A -> ExistSpec.positive_definite n B.
Proof. intros E H x Hx. rewrite <- (quad_ext n A B x x); auto. Qed.
Lemma pd_inverse n A B : is_inverse n A B -> ExistSpec.positive_definite n A -> ExistSpec.positive_definite n B.
Proof.
  intros HI HA x (i & Hi & Hx). rewrite (inverse_quad n A B x HI). apply HA.
  destruct (Classical_Prop.classic (exists j, (j < n)%nat /\ mv n B x j <> 0)) as [E|N]; [exact E|]. exfalso. apply Hx.
  rewrite <- (mv_inverse n A B x i HI Hi). unfold mv at 1. apply sumn_0. intros j Hj.
  destruct (Req_dec (mv n B x j) 0) as [Z|Z]; [rewrite Z; ring|]. exfalso. eauto.
Qed.
Lemma inverse_ext n A B C : mat_eq n A C -> is_inverse n A B -> is_inverse n C B.
Proof.
  intros E H i j Hi Hj. destruct (H i j Hi Hj) as [H1 H2]. rewrite <- H1 at 1. rewrite <- H2. unfold mmul.
  split; apply sumn_ext; intros k Hk; rewrite E by auto; reflexivity.
Qed.
Lemma inverse_unique n A B C : is_inverse n A B -> is_inverse n A C -> mat_eq n B C.
Proof.
  intros HB HC i j Hi Hj.
  assert (E : mmul n B (mmul n A C) i j = mmul n (mmul n B A) C i j).
  { unfold mmul. rewrite (sumn_ext n _ (fun k => sumn n (fun l => B i k * (A k l * C l j)))) by (intros; rewrite sumn_scale; reflexivity).
    rewrite sumn_swap. apply sumn_ext. intros l Hl. rewrite <- sumn_scale_r. apply sumn_ext. intros; ring. }
  transitivity (mmul n B (mmul n A C) i j).
  - unfold mmul at 1. rewrite (sumn_ext n _ (fun k => delta k j * B i k)).
    + rewrite sumn_delta by exact Hj. reflexivity.
    + intros k Hk. rewrite (proj1 (HC k j Hk Hj)). ring.
  - rewrite E. unfold mmul at 1. rewrite (sumn_ext n _ (fun k => delta i k * C k j)).
    + rewrite sumn_delta_r by exact Hi. reflexivity.
    + intros k Hk. rewrite (proj2 (HB i k Hi Hk)). reflexivity.
Qed.

(** * The first sub-problem *)
Lemma gl_shrink_pos rho l : 0 < rho -> 0 < gl_shrink rho l.
Proof.
  intros Hr. unfold gl_shrink. rewrite Rmax_left by nra. apply Rdiv_lt_0_compat; [|lra].
  assert (Rabs l < sqrt (l ^ 2 + 4 * rho)). { rewrite <- sqrt_Rsqr_abs. apply sqrt_lt_1; unfold Rsqr; nra. }
  unfold Rabs in H. destruct (Rcase_abs l); lra.
Qed.
Lemma gl_shrink_eq rho l : 0 < rho -> rho * gl_shrink rho l - / gl_shrink rho l = l.
Proof.
  intros Hr. pose proof (gl_shrink_pos rho l Hr) as P. set (f := gl_shrink rho l) in *.
  assert (E : rho * f * f - l * f - 1 = 0).
  { unfold f, gl_shrink. rewrite Rmax_left by nra. set (s := sqrt (l ^ 2 + 4 * rho)).
    assert (Hs : s * s = l ^ 2 + 4 * rho) by (apply sqrt_sqrt; nra).
    replace (rho * ((l + s) / (2 * rho)) * ((l + s) / (2 * rho)) - l * ((l + s) / (2 * rho)) - 1) with ((s * s - l ^ 2 - 4 * rho) / (4 * rho)) by (field; lra).
    rewrite Hs. field. lra. }
  apply (Rmult_eq_reg_r f); [|lra]. rewrite Rmult_minus_distr_r, Rinv_l by lra. lra.
Qed.

Definition exact_eigh (eigh : eigh_oracle) : Prop :=
  forall n K, symmetric n K -> exists d Q, eigh n K = Some (d, Q) /\ eigen_decomposition n K d Q.

Lemma gl_theta_spec eigh p rho S Z U : exact_eigh eigh -> 0 < rho -> symmetric p S -> symmetric p Z -> symmetric p U ->
  exists Th Ti, gl_theta eigh p rho S Z U = Ok Th /\ (forall i j, Th i j = Th j i) /\ ExistSpec.positive_definite p Th /\
    is_inverse p Th Ti /\ symmetric p Ti /\ ExistSpec.positive_definite p Ti /\
    forall i j, (i < p)%nat -> (j < p)%nat -> Ti i j = S i j + rho * (Th i j - Z i j + U i j).
Proof.
  intros HE Hr HS HZ HU. unfold gl_theta. set (K := fun i j => rho * (Z i j - U i j) - S i j).
  destruct (HE p K) as (d & Q & -> & HQ & HK). { intros i j Hi Hj. unfold K. rewrite (HS i j), (HZ i j), (HU i j) by auto. reflexivity. }
  set (f := fun k => gl_shrink rho (d k)).
  assert (Hsym : forall i j, symmetrise (conj p Q f) i j = conj p Q f i j).
  { intros i j. unfold symmetrise. rewrite (conj_sym p Q f j i). field. }
  assert (Hf : forall k, (k < p)%nat -> 0 < f k) by (intros k _; apply gl_shrink_pos; exact Hr).
  assert (HI : is_inverse p (conj p Q f) (conj p Q (fun k => / f k))).
  { apply conj_inverse; [exact HQ|]. intros k Hk. specialize (Hf k Hk). lra. }
  exists (symmetrise (conj p Q f)), (conj p Q (fun k => / f k)). split; [reflexivity|]. split.
  { intros i j. rewrite !Hsym. apply conj_sym. }
  split. { apply (pd_ext p (conj p Q f)); [intros i j _ _; symmetry; apply Hsym|]. apply conj_pd; auto. }
  split. { apply (inverse_ext p (conj p Q f)); [intros i j _ _; symmetry; apply Hsym|]. exact HI. }
  split. { intros i j _ _. apply conj_sym. }
  split. { apply conj_pd; [exact HQ|]. intros k Hk. apply Rinv_0_lt_compat. auto. }
  intros i j Hi Hj. rewrite Hsym. pose proof (HK i j Hi Hj) as E. unfold K in E.
  assert (E2 : rho * conj p Q f i j - conj p Q (fun k => / f k) i j = rho * (Z i j - U i j) - S i j).
  { rewrite E. unfold conj. rewrite <- sumn_scale, <- sumn_minus. apply sumn_ext. intros k Hk.
    pose proof (gl_shrink_eq rho (d k) Hr) as G. fold (f k) in G. replace (d k) with (rho * f k - / f k). ring. }
  lra.
Qed.

(** * The second sub-problem *)
(** [U] is [c] times a subgradient of the off-diagonal l1 norm at [Z]. *)
Definition subgrad (p : nat) (c : R) (Z U : mat) : Prop := forall i j, (i < p)%nat -> (j < p)%nat ->
  (i = j -> U i j = 0) /\ (i <> j -> Rabs (U i j) <= c /\ (0 < Z i j -> U i j = c) /\ (Z i j < 0 -> U i j = - c)).

Lemma soft_sub x c : 0 <= c -> let z := rsign x * Rmax (Rabs x - c) 0 in
  Rabs (x - z) <= c /\ (0 < z -> x - z = c) /\ (z < 0 -> x - z = - c).
Proof.
  intros Hc z. unfold z, rsign. destruct (Rltb_spec 0 x) as [P|P]; [|destruct (Rltb_spec x 0) as [N|N]].
  - rewrite (Rabs_right x) by lra. unfold Rmax. destruct (Rle_dec (x - c) 0); unfold Rabs; destruct (Rcase_abs _); repeat split; intros; lra.
  - rewrite (Rabs_left x) by lra. unfold Rmax. destruct (Rle_dec (- x - c) 0); unfold Rabs; destruct (Rcase_abs _); repeat split; intros; lra.
  - assert (x = 0) by lra. subst x. rewrite Rmult_0_l, Rminus_0_r, Rabs_R0. repeat split; intros; lra.
Qed.

Record stepped (p : nat) (rho alpha : R) (S Z U : mat) (st : gl_state) (Ti : mat) : Prop := {
  sp_sym : forall i j, gl_Th st i j = gl_Th st j i;
  sp_pd : ExistSpec.positive_definite p (gl_Th st);
  sp_inv : is_inverse p (gl_Th st) Ti;
  sp_isym : symmetric p Ti;
  sp_ipd : ExistSpec.positive_definite p Ti;
  sp_first : forall i j, (i < p)%nat -> (j < p)%nat -> Ti i j = S i j + rho * (gl_Th st i j - Z i j + U i j);
  sp_split : forall i j, gl_U st i j + gl_Z st i j = U i j + gl_Th st i j;
  sp_sub : subgrad p (alpha / rho) (gl_Z st) (gl_U st);
  sp_Zsym : symmetric p (gl_Z st);
  sp_Usym : symmetric p (gl_U st) }.

Lemma gl_step_spec eigh p rho alpha S Z U : exact_eigh eigh -> 0 < rho -> 0 <= alpha ->
  symmetric p S -> symmetric p Z -> symmetric p U ->
  exists st Ti, gl_step eigh p rho alpha S Z U = Ok st /\ stepped p rho alpha S Z U st Ti.
Proof.
  intros HE Hr Ha HS HZ HU. destruct (gl_theta_spec eigh p rho S Z U HE Hr HS HZ HU) as (Th & Ti & E & H1 & H2 & H3 & H4 & H5 & H6).
  unfold gl_step. rewrite E. cbn [bind]. eexists. exists Ti. split; [reflexivity|].
  set (X := fun i j => Th i j + U i j).
  assert (HX : symmetric p X) by (intros i j Hi Hj; unfold X; rewrite (H1 i j), (HU i j) by auto; reflexivity).
  assert (HZ' : symmetric p (fun i j => if (i =? j)%nat then X i j else soft_threshold X (alpha / rho) i j)).
  { intros i j Hi Hj. cbv beta. unfold soft_threshold. rewrite (Nat.eqb_sym j i). destruct (i =? j)%nat; rewrite (HX i j) by auto; reflexivity. }
  constructor; cbn [gl_Th gl_Z gl_U]; auto.
  - intros i j. ring.
  - intros i j Hi Hj. split.
    + intros ->. rewrite Nat.eqb_refl. unfold X. ring.
    + intros N. apply Nat.eqb_neq in N. rewrite N. unfold soft_threshold. rewrite N.
      replace (U i j + Th i j) with (X i j) by (unfold X; ring). apply soft_sub. apply Rmult_le_pos; [lra|]. left. apply Rinv_0_lt_compat. exact Hr.
  - intros i j Hi Hj. cbv beta. pose proof (HZ' i j Hi Hj) as G. cbv beta in G. apply (f_equal2 Rminus); [|exact G]. rewrite (HU i j Hi Hj), (H1 i j). reflexivity.
Qed.

(** * Frobenius inner product *)
Definition ip (n : nat) (A B : mat) : R := sumn n (fun i => sumn n (fun j => A i j * B i j)).
Lemma sum2_ext n (f g : mat) : mat_eq n f g -> sumn n (fun i => sumn n (fun j => f i j)) = sumn n (fun i => sumn n (fun j => g i j)).
Proof. intros H. apply sumn_ext. intros i Hi. apply sumn_ext. intros j Hj. apply H; auto. Qed.
Lemma sum2_le n (f g : mat) : (forall i j, (i < n)%nat -> (j < n)%nat -> f i j <= g i j) ->
  sumn n (fun i => sumn n (fun j => f i j)) <= sumn n (fun i => sumn n (fun j => g i j)).
Proof. intros H. apply sumn_le. intros i Hi. apply sumn_le. intros j Hj. apply H; auto. Qed.
Lemma sum2_plus n (f g : mat) : sumn n (fun i => sumn n (fun j => f i j + g i j)) = sumn n (fun i => sumn n (fun j => f i j)) + sumn n (fun i => sumn n (fun j => g i j)).
Proof. rewrite <- sumn_plus. apply sumn_ext. intros. apply sumn_plus. Qed.
Lemma sum2_scale n k (f : mat) : sumn n (fun i => sumn n (fun j => k * f i j)) = k * sumn n (fun i => sumn n (fun j => f i j)).
Proof. rewrite <- sumn_scale. apply sumn_ext. intros. apply sumn_scale. Qed.

(** Two positive semidefinite matrices have non-negative inner product. *)
Lemma ip_psd n A B : symmetric n A -> psd n A -> psd n B -> 0 <= ip n A B.
Proof.
  intros SA PA PB. destruct (spectral n A SA) as (d & Q & HQ & HA).
  assert (Hd : forall k, (k < n)%nat -> 0 <= d k).
  { intros k Hk. specialize (PA (fun i => Q i k)). rewrite (quad_ext n A (conj n Q d) _ (fun i => Q i k)) in PA by auto.
    rewrite conj_quad in PA. rewrite (sumn_ext n _ (fun l => delta l k * d l)) in PA; [rewrite sumn_delta in PA; auto|].
    intros l Hl. unfold dot. rewrite HQ by auto. unfold delta. destruct (l =? k)%nat; ring. }
  unfold ip. rewrite (sum2_ext n _ (fun i j => sumn n (fun k => Q i k * d k * Q j k * B i j))).
  2: { intros i j Hi Hj. rewrite HA by auto. rewrite <- sumn_scale_r. reflexivity. }
  rewrite (sumn_ext n _ (fun i => sumn n (fun k => sumn n (fun j => Q i k * d k * Q j k * B i j)))) by (intros; apply sumn_swap).
  rewrite sumn_swap. apply sumn_nonneg. intros k Hk.
  replace (sumn n (fun i => sumn n (fun j => Q i k * d k * Q j k * B i j))) with (d k * quad n B (fun i => Q i k)).
  - apply Rmult_le_pos; auto.
  - unfold quad. rewrite <- sum2_scale. apply sum2_ext. intros i j _ _. ring.
Qed.

(** Matrix inversion is antitone. *)
Lemma inverse_antitone n P Pi Q Qi : is_inverse n P Pi -> is_inverse n Q Qi -> symmetric n P -> symmetric n Q -> symmetric n Qi ->
  psd n Pi -> psd n Qi -> ip n (fun i j => Pi i j - Qi i j) (fun i j => P i j - Q i j) <= 0.
Proof.
  intros HP HQ SP SQ SQi PP PQ. set (D := fun i j => P i j - Q i j).
  assert (SD : symmetric n D) by (intros i j Hi Hj; unfold D; rewrite (SP i j), (SQ i j) by auto; reflexivity).
  assert (E : forall i j, (i < n)%nat -> (j < n)%nat ->
    sumn n (fun l => sumn n (fun k => Pi i k * D k l) * Qi l j) = Qi i j - Pi i j).
  { intros i j Hi Hj.
    assert (E1 : forall l, (l < n)%nat -> sumn n (fun k => Pi i k * D k l) = delta i l - sumn n (fun k => Pi i k * Q k l)).
    { intros l Hl. rewrite <- (proj2 (HP i l Hi Hl)). unfold mmul. rewrite <- sumn_minus. apply sumn_ext. intros; unfold D; ring. }
    rewrite (sumn_ext n _ (fun l => delta i l * Qi l j - sumn n (fun k => Pi i k * Q k l) * Qi l j)) by (intros l Hl; rewrite E1 by exact Hl; ring).
    rewrite sumn_minus, sumn_delta_r by exact Hi. f_equal.
    rewrite (sumn_ext n _ (fun l => sumn n (fun k => Pi i k * (Q k l * Qi l j)))).
    2: { intros l Hl. rewrite <- sumn_scale_r. apply sumn_ext. intros; ring. }
    rewrite sumn_swap. rewrite (sumn_ext n _ (fun k => delta k j * Pi i k)).
    - apply sumn_delta. exact Hj.
    - intros k Hk. rewrite sumn_scale. change (sumn n (fun l => Q k l * Qi l j)) with (mmul n Q Qi k j). rewrite (proj1 (HQ k j Hk Hj)). ring. }
  set (M := fun l j => sumn n (fun i => sumn n (fun k => D k l * Pi i k * D i j))).
  assert (PM : psd n M).
  { intros x. replace (quad n M x) with (quad n Pi (fun i => sumn n (fun j => D i j * x j))); [apply PP|].
    unfold quad, M.
    rewrite (sum2_ext n (fun i j => Pi i j * _ * _) (fun i k => sumn n (fun l => sumn n (fun j => D k l * Pi i k * D i j * x l * x j)))).
    2: { intros i k Hi Hk. rewrite <- sumn_scale. apply sumn_ext. intros l Hl.
         rewrite <- (sumn_scale n (Pi i k)), <- sumn_scale_r. apply sumn_ext. intros; ring. }
    rewrite (sumn_ext n (fun i => sumn n (fun k => sumn n _)) (fun i => sumn n (fun l => sumn n (fun k => sumn n (fun j => D k l * Pi i k * D i j * x l * x j)))))
      by (intros; apply sumn_swap).
    rewrite sumn_swap. apply sumn_ext. intros l Hl.
    rewrite (sumn_ext n (fun j => sumn n _ * x l * x j) (fun j => sumn n (fun i => sumn n (fun k => D k l * Pi i k * D i j * x l * x j)))).
    2: { intros j Hj. rewrite <- !sumn_scale_r. apply sumn_ext. intros i Hi. rewrite <- !sumn_scale_r. reflexivity. }
    symmetry. rewrite sumn_swap. apply sumn_ext. intros i Hi. rewrite sumn_swap. reflexivity. }
  pose proof (ip_psd n Qi M SQi PQ PM) as G.
  assert (EG : ip n (fun i j => Pi i j - Qi i j) D = - ip n Qi M); [|rewrite EG; lra].
  unfold ip. rewrite (sum2_ext n _ (fun i j => (-1) * sumn n (fun l => sumn n (fun k => Qi l j * (D k l * Pi i k * D i j))))).
  2: { intros i j Hi Hj. replace (Pi i j - Qi i j) with (- (Qi i j - Pi i j)) by ring. rewrite <- E by auto.
       rewrite <- Ropp_mult_distr_l, <- sumn_scale_r. rewrite <- (Rmult_1_l (sumn n _)), Ropp_mult_distr_l. f_equal.
       apply sumn_ext. intros l Hl. rewrite <- !sumn_scale_r. apply sumn_ext. intros; ring. }
  rewrite sum2_scale. replace (- sumn n (fun i => sumn n (fun j => Qi i j * M i j))) with (-1 * sumn n (fun i => sumn n (fun j => Qi i j * M i j))) by ring.
  f_equal.
  rewrite (sumn_ext n _ (fun i => sumn n (fun l => sumn n (fun j => sumn n (fun k => Qi l j * (D k l * Pi i k * D i j)))))) by (intros; apply sumn_swap).
  rewrite sumn_swap. apply sumn_ext. intros l Hl. rewrite sumn_swap. apply sumn_ext. intros j Hj. unfold M. rewrite <- sumn_scale.
  apply sumn_ext. intros i Hi. rewrite <- sumn_scale. reflexivity.
Qed.

(** * Progress towards any exact solution *)
Lemma subgrad_mono p c Z U Z' U' : 0 <= c -> subgrad p c Z U -> subgrad p c Z' U' ->
  forall i j, (i < p)%nat -> (j < p)%nat -> 0 <= (U i j - U' i j) * (Z i j - Z' i j).
Proof.
  intros Hc H H' i j Hi Hj. destruct (H i j Hi Hj) as [A1 A2], (H' i j Hi Hj) as [B1 B2].
  destruct (Nat.eq_dec i j) as [E|N]; [rewrite (A1 E), (B1 E); nra|].
  destruct (A2 N) as (A3 & A4 & A5), (B2 N) as (B3 & B4 & B5).
  assert (A6 : - c <= U i j <= c) by (unfold Rabs in A3; destruct (Rcase_abs (U i j)); lra).
  assert (B6 : - c <= U' i j <= c) by (unfold Rabs in B3; destruct (Rcase_abs (U' i j)); lra).
  destruct (Rtotal_order (Z i j) (Z' i j)) as [L|[E|L]]; [|rewrite E; nra|].
  - destruct (Rlt_dec (Z i j) 0) as [P|P]; [rewrite (A5 P); nra|]. rewrite (B4 ltac:(lra)). nra.
  - destruct (Rlt_dec 0 (Z i j)) as [P|P]; [rewrite (A4 P); nra|]. rewrite (B5 ltac:(lra)). nra.
Qed.

Definition dual_of (rho : R) (S W : mat) : mat := fun i j => (W i j - S i j) / rho.
Lemma solution_subgrad p rho alpha S P W : 0 < rho -> glasso_solution p S alpha P W -> subgrad p (alpha / rho) P (dual_of rho S W).
Proof.
  intros Hr [? ? ? Hd Ho Hp Hn] i j Hi Hj. unfold dual_of. split.
  - intros <-. rewrite Hd by auto. unfold Rdiv. ring.
  - intros N. split; [|split].
    + unfold Rdiv. rewrite Rabs_mult, (Rabs_right (/ rho)) by (left; apply Rinv_0_lt_compat; exact Hr).
      apply Rmult_le_compat_r; [left; apply Rinv_0_lt_compat; exact Hr|auto].
    + intros G. rewrite Hp by auto. field. lra.
    + intros G. rewrite Hn by auto. field. lra.
Qed.

Lemma stepped_progress p rho alpha S Z U st Ti P W : 0 < rho -> 0 <= alpha -> symmetric p S -> stepped p rho alpha S Z U st Ti ->
  glasso_solution p S alpha P W ->
  dist2 p (gl_Z st) P + dist2 p (gl_U st) (dual_of rho S W) + dist2 p (gl_Th st) Z
    <= dist2 p Z P + dist2 p U (dual_of rho S W).
Proof.
  intros Hr Ha HS H HP. pose proof (solution_subgrad p rho alpha S P W Hr HP) as HG. destruct H as [sp_sym0 sp_pd0 sp_inv0 sp_isym0 sp_ipd0 sp_first0 sp_split0 sp_sub0 sp_Zsym0 sp_Usym0]. destruct HP as [gs_sym0 gs_pd0 gs_inv0 gs_diag0 gs_off0 gs_pos0 gs_neg0].
  assert (Hw : symmetric p W) by (apply (BlProofs.inverse_symmetric p P); assumption).
  pose proof (inverse_antitone p (gl_Th st) Ti P W sp_inv0 gs_inv0 (fun i j _ _ => sp_sym0 i j) gs_sym0 Hw (pd_psd _ _ sp_ipd0)
    (inverse_psd p P W gs_inv0 (pd_psd _ _ gs_pd0))) as G.
  set (Us := dual_of rho S W) in *.
  assert (Hc : 0 <= alpha / rho) by (apply Rmult_le_pos; [lra|left; apply Rinv_0_lt_compat; exact Hr]).
  assert (G2 : 0 <= - (/ rho * ip p (fun i j => Ti i j - W i j) (fun i j => gl_Th st i j - P i j))).
  { assert (0 < / rho) by (apply Rinv_0_lt_compat; exact Hr). nra. }
  unfold dist2, ip in *. rewrite <- sum2_scale in G2.
  rewrite <- !sum2_plus.
  apply Rle_trans with (sumn p (fun i => sumn p (fun j => (Z i j - P i j) ^ 2 + (U i j - Us i j) ^ 2)) +
     2 * sumn p (fun i => sumn p (fun j => / rho * ((Ti i j - W i j) * (gl_Th st i j - P i j))))); [|lra].
  rewrite <- sum2_scale, <- sum2_plus. apply sum2_le. intros i j Hi Hj.
  rewrite (sp_first0 i j Hi Hj). assert (EW : W i j = S i j + rho * Us i j) by (unfold Us, dual_of; field; lra). rewrite EW.
  replace (/ rho * ((S i j + rho * (gl_Th st i j - Z i j + U i j) - (S i j + rho * Us i j)) * (gl_Th st i j - P i j)))
    with ((gl_Th st i j - Z i j + U i j - Us i j) * (gl_Th st i j - P i j)) by (field; lra).
  pose proof (subgrad_mono p _ _ _ _ _ Hc sp_sub0 HG i j Hi Hj) as M. pose proof (sp_split0 i j) as E.
  assert (ET : gl_Th st i j = gl_U st i j + gl_Z st i j - U i j) by lra. rewrite ET. clear - M. nra.
Qed.
