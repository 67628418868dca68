(** The gradient handed to the solver, optimal multipliers, tolerances, no views. *)
From Verif Require Import RBase QpBase OptModel MomSpec BlModel EpModel EpSpec EpProofs.
Open Scope R_scope.
Open Scope list_scope.

(** ** The gradient is the derivative *)
Definition nudge (lam : vec) (j : nat) (t : R) : vec := fun k => lam k + t * delta j k.
Lemma clip_id e : -700 <= e <= 700 -> clip e (-700) 700 = e.
Proof. intros H. unfold clip, Rmin, Rmax. repeat destruct (Rle_dec _ _); lra. Qed.
Lemma exponent_nudge d lam j t s : (j < du_K d)%nat -> ep_exponent d (nudge lam j t) s = ep_exponent d lam s - t * row_of d j s.
Proof.
  intros H. unfold ep_exponent, nudge.
  rewrite (sumn_ext (du_K d) (fun k => row_of d k s * (lam k + t * delta j k)) (fun k => row_of d k s * lam k + t * (delta j k * row_of d k s))) by (intros; ring).
  rewrite sumn_plus, sumn_scale, (sumn_delta_r (du_K d) j (fun k => row_of d k s)) by auto. lra.
Qed.
Lemma lin_nudge d lam j t : (j < du_K d)%nat ->
  sumn (du_K d) (fun k => nudge lam j t k * rhs_of d k) = sumn (du_K d) (fun k => lam k * rhs_of d k) + t * rhs_of d j.
Proof.
  intros H. unfold nudge.
  rewrite (sumn_ext (du_K d) _ (fun k => lam k * rhs_of d k + t * (delta j k * rhs_of d k))) by (intros; ring).
  rewrite sumn_plus, sumn_scale, (sumn_delta_r (du_K d) j (rhs_of d)) by auto. reflexivity.
Qed.

(** A function with derivative [l] at [0] and the local comparisons it implies. *)
Lemma lim_exp_lin a c : derivable_pt_lim (fun t => exp (a - t * c)) 0 (- c * exp a).
Proof.
  assert (E : - c * exp a = exp (a - 0 * c) * - c) by (replace (a - 0 * c) with a by ring; ring). rewrite E.
  apply (derivable_pt_lim_comp (fun t => a - t * c) exp 0 (- c)).
  - replace (- c) with (0 - (1 * c + 0 * 0)) by ring.
    apply (derivable_pt_lim_minus (fct_cte a) (fun t => t * c)); [apply derivable_pt_lim_const|].
    apply (derivable_pt_lim_mult id (fct_cte c) 0 1 0); [apply derivable_pt_lim_id|apply derivable_pt_lim_const].
  - apply derivable_pt_lim_exp.
Qed.
Lemma lim_sum n (f : nat -> R -> R) (l : nat -> R) : (forall i, (i < n)%nat -> derivable_pt_lim (f i) 0 (l i)) ->
  derivable_pt_lim (fun t => sumn n (fun i => f i t)) 0 (sumn n l).
Proof.
  induction n; intros H; simpl.
  - apply (derivable_pt_lim_const 0).
  - apply (derivable_pt_lim_plus (fun t => sumn n (fun i => f i t)) (f n)); [apply IHn; intros; apply H; lia|apply H; lia].
Qed.
Lemma lim_local f g l r : 0 < r -> (forall t, Rabs t < r -> f t = g t) -> derivable_pt_lim f 0 l -> derivable_pt_lim g 0 l.
Proof.
  intros Hr E D eps He. destruct (D eps He) as [de Hd].
  assert (Hm : 0 < Rmin de r) by (apply Rmin_pos; [apply cond_pos|auto]).
  exists (mkposreal _ Hm). intros h Hh Hl. simpl in Hl.
  rewrite <- !E. { apply Hd; auto. apply Rlt_le_trans with (1 := Hl), Rmin_l. }
  - rewrite Rabs_R0. auto.
  - rewrite Rplus_0_l. apply Rlt_le_trans with (1 := Hl), Rmin_r.
Qed.
(** Within a radius no exponent reaches the clipping limits. *)
Lemma room d lam j n : (n <= du_S d)%nat -> unclipped d lam ->
  exists r, 0 < r /\ forall t, Rabs t < r -> forall s, (s < n)%nat -> -700 <= ep_exponent d lam s - t * row_of d j s <= 700.
Proof.
  intros Hn U. induction n as [|n IH].
  - exists 1. split; [lra|]. intros; lia.
  - destruct IH as [r [Hr H]]; [lia|]. destruct (U n ltac:(lia)) as [L R].
    set (e := ep_exponent d lam n) in *. set (c := row_of d j n).
    set (m := Rmin (e + 700) (700 - e)). assert (M : 0 < m) by (apply Rmin_pos; lra).
    assert (P : 0 < m / (1 + Rabs c)) by (apply Rdiv_lt_0_compat; [auto|pose proof (Rabs_pos c); lra]).
    exists (Rmin r (m / (1 + Rabs c))). split; [apply Rmin_pos; auto|]. intros t Ht s Hs.
    destruct (Nat.eq_dec s n) as [-> |Ne].
    + fold e c. assert (B : Rabs (t * c) <= m).
      { rewrite Rabs_mult. assert (Rabs t < m / (1 + Rabs c)) by (apply Rlt_le_trans with (1 := Ht), Rmin_r).
        pose proof (Rabs_pos c). pose proof (Rabs_pos t).
        assert (Rabs t * (1 + Rabs c) <= m).
        { apply Rmult_le_reg_r with (/ (1 + Rabs c)); [apply Rinv_0_lt_compat; lra|]. rewrite Rmult_assoc, Rinv_r by lra. unfold Rdiv in H0. lra. }
        nra. }
      assert (m <= e + 700) by apply Rmin_l. assert (m <= 700 - e) by apply Rmin_r.
      unfold Rabs in B. destruct (Rcase_abs (t * c)); lra.
    + apply H; [apply Rlt_le_trans with (1 := Ht), Rmin_l|lia].
Qed.
Lemma gradient_l d lam j : (j < du_K d)%nat -> unclipped d lam ->
  derivable_pt_lim (fun t => dual_objective d (nudge lam j t)) 0 (dual_gradient d lam j).
Proof.
  intros Hj U. destruct (room d lam j (du_S d) (le_n _) U) as [r [Hr H]].
  apply (lim_local (fun t => 1000 * (sumn (du_S d) (fun s => exp (ep_exponent d lam s - t * row_of d j s)) +
                              (sumn (du_K d) (fun k => lam k * rhs_of d k) + t * rhs_of d j))) _ _ r Hr).
  - intros t Ht. unfold dual_objective. rewrite lin_nudge by auto.
    rewrite (sumn_ext (du_S d) (ep_x d (nudge lam j t)) (fun s => exp (ep_exponent d lam s - t * row_of d j s))); [ring|].
    intros s Hs. unfold ep_x. rewrite exponent_nudge by auto. rewrite clip_id; auto.
  - unfold dual_gradient.
    replace (rhs_of d j - sumn (du_S d) (fun s => row_of d j s * ep_x d lam s)) with
      (sumn (du_S d) (fun s => - row_of d j s * exp (ep_exponent d lam s)) + (0 + (1 * rhs_of d j + 0 * 0))).
    2: { rewrite (sumn_ext (du_S d) _ (fun s => - (row_of d j s * ep_x d lam s))).
         - rewrite sumn_opp. ring.
         - intros s Hs. unfold ep_x. rewrite clip_id by (destruct (U s Hs); lra). ring. }
    apply (derivable_pt_lim_scal (fun t => sumn (du_S d) (fun s => exp (ep_exponent d lam s - t * row_of d j s)) +
                              (sumn (du_K d) (fun k => lam k * rhs_of d k) + t * rhs_of d j))).
    apply (derivable_pt_lim_plus (fun t => sumn (du_S d) (fun s => exp (ep_exponent d lam s - t * row_of d j s)))
             (fun t => sumn (du_K d) (fun k => lam k * rhs_of d k) + t * rhs_of d j)).
    + apply (lim_sum (du_S d) (fun s t => exp (ep_exponent d lam s - t * row_of d j s))). intros. apply lim_exp_lin.
    + apply (derivable_pt_lim_plus (fct_cte (sumn (du_K d) (fun k => lam k * rhs_of d k))) (fun t => t * rhs_of d j)); [apply derivable_pt_lim_const|].
      apply (derivable_pt_lim_mult id (fct_cte (rhs_of d j)) 0 1 0); [apply derivable_pt_lim_id|apply derivable_pt_lim_const].
Qed.

(** ** Optimal multipliers are stationary *)
Lemma min_right f l r : 0 < r -> derivable_pt_lim f 0 l -> (forall t, 0 <= t < r -> f 0 <= f t) -> 0 <= l.
Proof.
  intros Hr D M. destruct (Rle_lt_dec 0 l) as [|N]; auto. exfalso.
  destruct (D (- l / 2) ltac:(lra)) as [de Hd]. pose proof (cond_pos de) as Hde.
  set (h := Rmin (de / 2) (r / 2)). assert (Hh : 0 < h) by (apply Rmin_pos; lra).
  assert (h <= de / 2) by apply Rmin_l. assert (h <= r / 2) by apply Rmin_r.
  specialize (Hd h ltac:(lra)). rewrite Rabs_right in Hd by lra. specialize (Hd ltac:(lra)). rewrite Rplus_0_l in Hd.
  pose proof (M h ltac:(lra)).
  assert (0 <= (f h - f 0) / h) by (apply Rmult_le_pos; [lra|apply Rlt_le, Rinv_0_lt_compat; auto]).
  apply Rabs_def2 in Hd. lra.
Qed.
Lemma min_left f l r : 0 < r -> derivable_pt_lim f 0 l -> (forall t, - r < t <= 0 -> f 0 <= f t) -> l <= 0.
Proof.
  intros Hr D M. assert (D' : derivable_pt_lim (fun t => f (- t)) 0 (l * - (1))).
  { apply (derivable_pt_lim_comp (fun t => - t) f).
    - apply (derivable_pt_lim_opp id). apply derivable_pt_lim_id.
    - rewrite Ropp_0. exact D. }
  assert (0 <= l * - (1)).
  { apply (min_right _ _ r Hr D'). intros t Ht. rewrite Ropp_0. apply M. lra. }
  lra.
Qed.
Lemma nudge_0 d lam j : dual_objective d (nudge lam j 0) = dual_objective d lam.
Proof.
  assert (E : forall k, nudge lam j 0 k = lam k) by (intros; unfold nudge; ring).
  unfold dual_objective. do 2 f_equal. f_equal.
  - f_equal. apply sumn_ext. intros s Hs. unfold ep_x, ep_exponent. do 3 f_equal. apply sumn_ext. intros; rewrite E; auto.
  - apply sumn_ext. intros; rewrite E; auto.
Qed.
Lemma nudge_bounds d lam j t : in_bounds d lam -> ((j < du_eq d)%nat \/ 0 <= lam j + t) -> in_bounds d (nudge lam j t).
Proof.
  intros B H k Hk. unfold nudge, delta. destruct (Nat.eqb_spec j k) as [-> |N].
  - destruct H; [lia|lra].
  - rewrite Rmult_0_r, Rplus_0_r. apply B; auto.
Qed.
Lemma optimum_stationary_l d lam : (du_eq d <= du_K d)%nat -> unclipped d lam -> dual_optimum d lam -> stationary d lam.
Proof.
  intros Le U [B M]. split.
  - intros k Hk. assert (Hk' : (k < du_K d)%nat) by lia. pose proof (gradient_l d lam k Hk' U) as D.
    assert (P : forall t, dual_objective d (nudge lam k 0) <= dual_objective d (nudge lam k t)).
    { intros t. rewrite nudge_0. apply M, nudge_bounds; auto. }
    apply Rle_antisym.
    + apply (min_left _ _ 1 ltac:(lra) D); intros; apply P.
    + apply (min_right _ _ 1 ltac:(lra) D); intros; apply P.
  - intros k Hk. pose proof (gradient_l d lam k (proj2 Hk) U) as D. pose proof (B k Hk) as L.
    assert (P : forall t, 0 <= lam k + t -> dual_objective d (nudge lam k 0) <= dual_objective d (nudge lam k t)).
    { intros t Ht. rewrite nudge_0. apply M, nudge_bounds; auto. }
    assert (G0 : 0 <= dual_gradient d lam k) by (apply (min_right _ _ 1 ltac:(lra) D); intros; apply P; lra).
    split; auto. split; auto. destruct (Req_dec (lam k) 0) as [-> |N]; [ring|].
    assert (dual_gradient d lam k <= 0) by (apply (min_left _ _ (lam k) ltac:(lra) D); intros; apply P; lra).
    replace (dual_gradient d lam k) with 0 by lra. ring.
Qed.

(** ** Tolerances *)
Lemma ep_tolerance_l eps minimize p A G method q : sound_tol eps minimize -> 0 <= eps < 1000 ->
  entropy_pooling minimize p A G method = Ok q -> has_ones (List.length p) A ->
  (forall s, 0 < q s) /\ is_prob (List.length p) q /\
  (forall r b, In (r, b) A -> Rabs (expectation (List.length p) q r - b) <= eps * (1 + Rabs b) / (1000 - eps)) /\
  (forall r h, In (r, h) (opt_rows G) -> expectation (List.length p) q r <= h + eps * (1 + Rabs h) / (1000 - eps)).
Proof.
  intros So He H Ho. destruct (ep_inv _ _ _ _ _ _ H) as [m [pn [lam [E [M Q]]]]].
  destruct (normalize_positive_inv _ _ E) as [Ne [_ [L _]]]. destruct (So _ _ M) as [S1 S2].
  rewrite <- L in *. set (T := List.length pn) in *. set (x := ep_x (ep_dual pn A G m) lam) in *. set (e := eps / 1000).
  assert (E1 : forall r b, In (r, b) A -> - e <= b - expectation T x r <= e).
  { intros r b I. destruct (in_eq_index pn A G m r b I) as [k [Hk [<- <-]]]. pose proof (S1 k Hk) as B.
    rewrite grad_val in B. fold x T in B. unfold Rabs in B. unfold e. destruct (Rcase_abs _); lra. }
  assert (E2 : forall r h, In (r, h) (opt_rows G) -> expectation T x r <= h + e).
  { intros r h I. destruct (in_le_index pn A G m r h I) as [k [Hk [<- <-]]]. destruct (S2 k Hk) as [_ B].
    rewrite grad_val in B. fold x T in B. unfold e. lra. }
  set (sg := sumn T x) in *.
  assert (Sg : - e <= 1 - sg <= e).
  { destruct Ho as [r [I O]]. replace sg with (expectation T x r); [apply E1; auto|]. apply sumn_ext. intros s Hs. rewrite O by auto. lra. }
  assert (e < 1) by (unfold e; lra). assert (0 <= e) by (unfold e; lra). assert (P : 0 < sg) by lra.
  assert (EX : forall r, expectation T q r = expectation T x r / sg).
  { intros r. unfold expectation. rewrite <- sumn_div. apply sumn_ext. intros s _. rewrite Q. field. lra. }
  assert (BD : forall b, eps * (1 + Rabs b) / (1000 - eps) = e * (1 + Rabs b) / (1 - e)).
  { intros b. unfold e. field. lra. }
  split. { intros s. rewrite Q. apply Rdiv_lt_0_compat; [apply exp_pos|auto]. }
  split. { split. { intros s Hs. rewrite Q. apply Rlt_le, Rdiv_lt_0_compat; [apply exp_pos|auto]. }
    rewrite (sumn_ext T q (fun s => x s / sg)) by (intros; apply Q). rewrite sumn_div. fold sg. field. lra. }
  assert (K : forall b z, z <= b + e -> z / sg - b <= e * (1 + Rabs b) / (1 - e)).
  { intros b z Hz. apply Rmult_le_reg_r with sg; auto.
    replace ((z / sg - b) * sg) with (z - b * sg) by (field; lra).
    apply Rle_trans with (e * (1 + Rabs b)).
    - pose proof (Rle_abs b). pose proof (Rle_abs (- b)). rewrite Rabs_Ropp in *. nra.
    - apply Rle_trans with (e * (1 + Rabs b) / (1 - e) * (1 - e)); [right; field; lra|].
      apply Rmult_le_compat_l; [|lra]. apply Rmult_le_pos; [pose proof (Rabs_pos b); nra|apply Rlt_le, Rinv_0_lt_compat; lra]. }
  split.
  - intros r b I. rewrite BD, EX. pose proof (E1 r b I). set (z := expectation T x r) in *. clearbody z.
    pose proof (K b z ltac:(lra)). pose proof (K (- b) (- z) ltac:(lra)) as K2. rewrite Rabs_Ropp in K2.
    replace (- z / sg - - b) with (- (z / sg - b)) in K2 by (field; lra).
    unfold Rabs at 1. destruct (Rcase_abs _); lra.
  - intros r h I. rewrite BD, EX. pose proof (E2 r h I). pose proof (K h _ H2). lra.
Qed.

(** ** No views *)
Lemma sumn_lt_pt n f g : (0 < n)%nat -> (forall i, (i < n)%nat -> f i < g i) -> sumn n f < sumn n g.
Proof.
  destruct n; [lia|]. intros _ H. simpl. assert (sumn n f <= sumn n g) by (apply sumn_le; intros; apply Rlt_le, H; lia).
  pose proof (H n ltac:(lia)). lra.
Qed.
Lemma clip_mono a b : a <= b -> clip a (-700) 700 <= clip b (-700) 700.
Proof. intros. unfold clip, Rmin, Rmax. repeat destruct (Rle_dec _ _); lra. Qed.
Lemma ep_no_views_l minimize p method q : sound minimize -> entropy_pooling minimize p [ones_row] None method = Ok q ->
  (forall s, (s < List.length p)%nat -> exp (-700) < of_list p s / rsum p) ->
  forall s, (s < List.length p)%nat -> q s = of_list p s / rsum p.
Proof.
  intros So H Hc. assert (Ho : has_ones (List.length p) [ones_row]) by (exists (fun _ => 1); split; [left; reflexivity|auto]).
  destruct (ep_q _ _ _ _ _ _ So H Ho) as [m [pn [lam [E [L [ST [_ Q]]]]]]].
  destruct (normalize_positive_inv _ _ E) as [Ne [Hp [_ [c [C0 [C _]]]]]].
  set (T := List.length p) in *. assert (T0 : (0 < T)%nat) by (unfold T; destruct p; [congruence|simpl; lia]).
  assert (Sp : 0 < rsum p) by (apply rsum_pos; auto).
  assert (S1 : sumn T q = 1).
  { rewrite (sumn_ext T q (ep_x (ep_dual pn [ones_row] None m) lam)) by (intros; apply Q). rewrite <- L in *. apply (st_sum _ _ _ _ _ ST Ho). }
  assert (S2 : sumn T (fun s => of_list p s / rsum p) = 1).
  { rewrite sumn_div. unfold T. rewrite rsum_sumn. unfold of_list. rewrite <- rsum_sumn. field. lra. }
  set (k := 1 + lam 0%nat + ln c - ln (rsum p)).
  assert (X : forall s, (s < T)%nat -> q s = exp (clip (ln (of_list p s / rsum p) - k) (-700) 700)).
  { intros s Hs. rewrite Q. unfold ep_x, ep_exponent. cbn [ep_dual du_logp du_K du_rows opt_rows app]. unfold du_K, row_of. cbn [ep_dual du_rows opt_rows app List.length sumn nth fst ones_row].
    rewrite C. do 2 f_equal. unfold Rdiv. pose proof (of_list_pos p s Hp Hs).
    rewrite !ln_mult by (auto using Rinv_0_lt_compat). rewrite !ln_Rinv by auto. unfold k. lra. }
  assert (U : forall s, (s < T)%nat -> -700 < ln (of_list p s / rsum p) <= 0).
  { intros s Hs. split.
    - apply exp_lt_inv. rewrite exp_ln; [apply Hc; auto|apply Rdiv_lt_0_compat; auto; apply of_list_pos; auto].
    - rewrite <- ln_1. destruct (Req_dec (of_list p s / rsum p) 1) as [-> |N]; [lra|]. apply Rlt_le, ln_increasing.
      + apply Rdiv_lt_0_compat; auto; apply of_list_pos; auto.
      + assert (of_list p s <= rsum p) by (apply rsum_ge_elem; [intros; apply Rlt_le; auto|apply nth_In; auto]).
        assert (of_list p s / rsum p <= 1); [|lra]. apply Rmult_le_reg_r with (rsum p); auto. unfold Rdiv. rewrite Rmult_assoc, Rinv_l by lra. lra. }
  assert (LE : forall s, (s < T)%nat -> of_list p s / rsum p = exp (ln (of_list p s / rsum p))).
  { intros s Hs. rewrite exp_ln; auto. apply Rdiv_lt_0_compat; auto. apply of_list_pos; auto. }
  assert (K0 : k = 0).
  { destruct (Rtotal_order k 0) as [N|[?|N]]; auto; exfalso.
    - assert (sumn T (fun s => of_list p s / rsum p) < sumn T q); [|lra]. apply sumn_lt_pt; auto. intros s Hs. rewrite X, LE by auto. rewrite ln_exp.
      apply exp_increasing. pose proof (U s Hs). unfold clip, Rmin, Rmax. repeat destruct (Rle_dec _ _); lra.
    - assert (sumn T q < sumn T (fun s => of_list p s / rsum p)); [|lra]. apply sumn_lt_pt; auto. intros s Hs. rewrite X, LE by auto. rewrite ln_exp.
      apply exp_increasing. pose proof (U s Hs). unfold clip, Rmin, Rmax. repeat destruct (Rle_dec _ _); lra. }
  intros s Hs. rewrite X by auto. rewrite K0, Rminus_0_r, clip_id; [|pose proof (U s Hs); lra]. symmetry. apply LE; auto.
Qed.
