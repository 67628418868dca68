(** Proofs about entropy pooling with tolerances. *)
From Verif Require Import RBase QpBase OptModel OptProofs OptProofs3 OptProofs7 MomSpec BlModel EpModel EpSpec EpProofs EpProofs2 EpProofs4 EtSpec.
Open Scope R_scope.
Open Scope list_scope.

Lemma exp_dot' T w r : expectation T w r = dot T r w.
Proof. apply sumn_ext. intros; ring. Qed.

Lemma price_sum T K (w : vec) (row : nat -> vec) (lam : vec) :
  sumn T (fun s => w s * sumn K (fun k => row k s * lam k)) = sumn K (fun k => lam k * expectation T w (row k)).
Proof.
  rewrite (sumn_ext T _ (fun s => sumn K (fun k => lam k * (w s * row k s)))).
  - rewrite sumn_swap. apply sumn_ext. intros k Hk. unfold expectation. rewrite <- sumn_scale. reflexivity.
  - intros s Hs. rewrite <- sumn_scale. apply sumn_ext. intros; ring.
Qed.

(** ** Two distributions of exponential form *)
Lemma clip_prod a b : (exp (clip a (-700) 700) - exp (clip b (-700) 700)) * (clip a (-700) 700 - clip b (-700) 700) <=
  (exp (clip a (-700) 700) - exp (clip b (-700) 700)) * (a - b).
Proof.
  assert (K : forall a b, b <= a -> (exp (clip a (-700) 700) - exp (clip b (-700) 700)) * (clip a (-700) 700 - clip b (-700) 700) <=
    (exp (clip a (-700) 700) - exp (clip b (-700) 700)) * (a - b)).
  { clear. intros a b L. assert (C : 0 <= clip a (-700) 700 - clip b (-700) 700 <= a - b) by (unfold clip, Rmin, Rmax; repeat destruct (Rle_dec _ _); lra).
    apply Rmult_le_compat_l; [|lra]. destruct (Req_dec (clip a (-700) 700) (clip b (-700) 700)) as [-> |]; [lra|].
    assert (exp (clip b (-700) 700) < exp (clip a (-700) 700)) by (apply exp_increasing; lra). lra. }
  destruct (Rle_lt_dec b a) as [L|L]; [apply K; auto|]. pose proof (K b a ltac:(lra)). lra.
Qed.
(** [(sqrt a - sqrt b)^2 <= (a - b)(ln a - ln b) / 4]. *)
Lemma ln_le_sub y : 0 < y -> ln y <= y - 1.
Proof. intros H. pose proof (exp_ineq1_le (ln y)) as K. rewrite exp_ln in K by auto. lra. Qed.
Lemma hell_exp a b : (exp (a / 2) - exp (b / 2)) ^ 2 * 2 <= (exp a - exp b) * (a - b).
Proof.
  (* with [u = exp (a/2)], [v = exp (b/2)]: [(u^2 - v^2) * 2 (ln u - ln v) >= 2 (u - v)^2 * ...] *)
  assert (K : forall a b, b <= a -> (exp (a / 2) - exp (b / 2)) ^ 2 * 2 <= (exp a - exp b) * (a - b)).
  { clear. intros a b L. set (u := exp (a / 2)). set (v := exp (b / 2)).
    assert (Ea : exp a = u * u) by (unfold u; rewrite <- exp_plus; f_equal; lra).
    assert (Eb : exp b = v * v) by (unfold v; rewrite <- exp_plus; f_equal; lra).
    assert (u0 : 0 < u) by apply exp_pos. assert (v0 : 0 < v) by apply exp_pos.
    assert (uv : v <= u). { destruct (Req_dec a b) as [-> |]; [unfold u, v; lra|]. apply Rlt_le, exp_increasing. lra. }
    assert (D : (u - v) / u <= (a - b) / 2).
    { assert (lu : ln u = a / 2) by (unfold u; apply ln_exp). assert (lv : ln v = b / 2) by (unfold v; apply ln_exp).
      pose proof (ln_le_sub (v / u) ltac:(apply Rdiv_lt_0_compat; auto)) as H. unfold Rdiv in H at 1. rewrite ln_mult, ln_Rinv, lu, lv in H; auto; [|apply Rinv_0_lt_compat; auto].
      replace ((u - v) / u) with (1 - v / u) by (field; lra). lra. }
    rewrite Ea, Eb. assert (D2 : 2 * (u - v) <= (a - b) * u).
    { apply (Rmult_le_compat_r u) in D; [|lra]. replace ((u - v) / u * u) with (u - v) in D by (field; lra). lra. }
    replace ((u * u - v * v) * (a - b)) with ((u - v) * ((a - b) * u + (a - b) * v)) by ring.
    replace ((u - v) ^ 2 * 2) with ((u - v) * (2 * (u - v))) by ring. apply Rmult_le_compat_l; [lra|].
    assert (0 <= (a - b) * v) by (apply Rmult_le_pos; lra). lra. }
  destruct (Rle_lt_dec b a) as [L|L]; [apply K; auto|]. pose proof (K b a ltac:(lra)) as H.
  replace ((exp (a / 2) - exp (b / 2)) ^ 2) with ((exp (b / 2) - exp (a / 2)) ^ 2) by ring. lra.
Qed.

Section Two.
  Variables (pn : list R) (A : rows) (G : option rows) (m m' : string) (lam lam' : vec).
  Variables (eps B B' : R).
  Notation d := (ep_dual pn A G m).
  Notation T := (List.length pn).
  Hypothesis E0 : 0 <= eps.
  Hypothesis N : near_kkt eps B d lam.
  Hypothesis N' : near_kkt eps B' (ep_dual pn A G m') lam'.
  Hypothesis HO : has_ones T A.
  Let x := ep_x d lam.
  Let y := ep_x (ep_dual pn A G m') lam'.
  Let e := eps / 1000.
  Let gr k := rhs_of d k - expectation T x (row_of d k).
  Let gr' k := rhs_of d k - expectation T y (row_of d k).
  Let mG := INR (List.length (opt_rows G)).

  Lemma gr_eq k : (k < List.length A)%nat -> Rabs (gr k) <= e.
  Proof. intros L. destruct N as [[S1 _] _]. pose proof (S1 k L) as H. rewrite grad_val, Rabs_mult, (Rabs_right 1000) in H by lra. fold x T in H. fold (gr k) in H. unfold e. lra. Qed.
  Lemma gr_le k : (List.length A <= k < du_K d)%nat -> 0 <= lam k /\ - e <= gr k /\ lam k * gr k <= e.
  Proof.
    intros L. destruct N as [[_ S2] [S3 _]]. destruct (S2 k L) as [L0 H]. pose proof (S3 k L) as H3. rewrite grad_val in H, H3. fold x T in H, H3. fold (gr k) in H, H3.
    unfold e. split; auto. split; lra.
  Qed.
  Lemma gr_sum : Rabs (1 - sumn T x) <= e.
  Proof.
    destruct HO as [r [I O]]. destruct (in_eq_index pn A G m r 1 I) as [k [L [E1 E2]]]. pose proof (gr_eq k L) as H. unfold gr in H. rewrite E1, E2 in H.
    replace (sumn T x) with (expectation T x r); auto. apply sumn_ext. intros s Hs. rewrite O by auto. ring.
  Qed.
  Lemma split_K f : sumn (du_K d) f = sumn (List.length A) f + sumn (List.length (opt_rows G)) (fun k => f (List.length A + k)%nat).
  Proof. unfold du_K. cbn [ep_dual du_rows]. rewrite app_length. induction (List.length (opt_rows G)) as [|n IH]; [rewrite Nat.add_0_r; simpl; ring|]. rewrite Nat.add_succ_r. simpl. rewrite IH. ring. Qed.
  Lemma len_K : du_K d = (List.length A + List.length (opt_rows G))%nat.
  Proof. unfold du_K. cbn [ep_dual du_rows]. apply app_length. Qed.
End Two.

Section Pair.
  Variables (pn : list R) (A : rows) (G : option rows) (m m' : string) (lam lam' : vec).
  Variables (eps B B' : R).
  Notation d := (ep_dual pn A G m).
  Notation T := (List.length pn).
  Hypothesis E0 : 0 <= eps < 1000.
  Hypothesis N : near_kkt eps B d lam.
  Hypothesis N' : near_kkt eps B' d lam'.
  Hypothesis HO : has_ones T A.
  Let x := ep_x d lam.
  Let y := ep_x d lam'.
  Let e := eps / 1000.
  Let u (l : vec) (s : nat) := sumn (du_K d) (fun k => row_of d k s * l k).
  Let g (w : vec) k := rhs_of d k - expectation T w (row_of d k).
  Let mG := INR (List.length (opt_rows G)).

  Lemma pair_div : sumn T (fun s => (exp (clip (ep_exponent d lam s) (-700) 700 / 2) - exp (clip (ep_exponent d lam' s) (-700) 700 / 2)) ^ 2) <= e * (B + B' + mG).
  Proof.
    assert (S : sumn T (fun s => (exp (clip (ep_exponent d lam s) (-700) 700 / 2) - exp (clip (ep_exponent d lam' s) (-700) 700 / 2)) ^ 2 * 2) <=
      sumn T (fun s => (x s - y s) * (u lam' s - u lam s))).
    { apply sumn_le. intros s Hs. eapply Rle_trans; [apply hell_exp|]. eapply Rle_trans; [apply clip_prod|]. fold (ep_x d lam s) (ep_x d lam' s). fold x y.
      right. unfold ep_exponent. fold (u lam s) (u lam' s). ring. }
    rewrite sumn_scale_r in S.
    assert (P : sumn T (fun s => (x s - y s) * (u lam' s - u lam s)) = sumn (du_K d) (fun k => (lam' k - lam k) * (g y k - g x k))).
    { rewrite (sumn_ext T _ (fun s => (x s * u lam' s - x s * u lam s) - (y s * u lam' s - y s * u lam s))) by (intros; ring). rewrite !sumn_minus. unfold u. rewrite !price_sum.
      rewrite <- !sumn_minus. apply sumn_ext. intros k Hk. unfold g. ring. }
    assert (Bd : sumn (du_K d) (fun k => (lam' k - lam k) * (g y k - g x k)) <= sumn (du_K d) (fun k => 2 * e * (Rabs (lam k) + Rabs (lam' k)) + (if k <? List.length A then 0 else 2 * e))).
    { apply sumn_le. intros k Hk. assert (e0 : 0 <= e) by (unfold e; lra). destruct (Nat.ltb_spec k (List.length A)) as [L|L].
      - assert (G1 : Rabs (g x k) <= e) by exact (gr_eq pn A G m lam eps B N k L). assert (G2 : Rabs (g y k) <= e) by exact (gr_eq pn A G m lam' eps B' N' k L).
        eapply Rle_trans; [apply Rle_abs|]. rewrite Rabs_mult.
        assert (Rabs (lam' k - lam k) <= Rabs (lam k) + Rabs (lam' k)) by (unfold Rminus; eapply Rle_trans; [apply Rabs_triang|]; rewrite Rabs_Ropp; lra).
        assert (Rabs (g y k - g x k) <= 2 * e) by (unfold Rminus; eapply Rle_trans; [apply Rabs_triang|]; rewrite Rabs_Ropp; lra).
        pose proof (Rabs_pos (lam' k - lam k)). pose proof (Rabs_pos (g y k - g x k)). nra.
      - assert (Q1 : 0 <= lam k /\ - e <= g x k /\ lam k * g x k <= e) by (apply (gr_le pn A G m lam eps B N k); lia).
        assert (Q2 : 0 <= lam' k /\ - e <= g y k /\ lam' k * g y k <= e) by (apply (gr_le pn A G m lam' eps B' N' k); lia).
        destruct Q1 as [H1 [H2 H3]]. destruct Q2 as [K1 [K2 K3]]. rewrite !Rabs_right by lra. nra. }
    rewrite sumn_plus, sumn_scale in Bd. rewrite sumn_plus in Bd.
    assert (Z : sumn (du_K d) (fun k => if k <? List.length A then 0 else 2 * e) = 2 * e * mG).
    { rewrite split_K. rewrite (sumn_ext (List.length A) _ (fun _ => 0)), sumn_zero, Rplus_0_l.
      - rewrite (sumn_ext _ _ (fun _ => 2 * e)); [rewrite sumn_const; unfold mG; ring|]. intros k _. destruct (Nat.ltb_spec (List.length A + k) (List.length A)); [lia|reflexivity].
      - intros k L. destruct (Nat.ltb_spec k (List.length A)); [reflexivity|lia]. }
    rewrite Z in Bd. destruct N as [_ [_ S1]]. destruct N' as [_ [_ S2]]. assert (e0 : 0 <= e) by (unfold e; lra). nra.
  Qed.

  Lemma half_sq l s : exp (clip (ep_exponent d l s) (-700) 700 / 2) * exp (clip (ep_exponent d l s) (-700) 700 / 2) = ep_x d l s.
  Proof. rewrite <- exp_plus. unfold ep_x. f_equal. lra. Qed.

  Lemma pair_l1 : l1_dist T x y <= 3 * sqrt (e * (B + B' + mG)).
  Proof.
    set (a := fun s => exp (clip (ep_exponent d lam s) (-700) 700 / 2)). set (b := fun s => exp (clip (ep_exponent d lam' s) (-700) 700 / 2)).
    assert (X : forall s, x s = a s * a s) by (intros; symmetry; apply half_sq). assert (Y : forall s, y s = b s * b s) by (intros; symmetry; apply half_sq).
    pose proof (cauchy T (fun s => Rabs (a s - b s)) (fun s => a s + b s)) as C.
    assert (C1 : dot T (fun s => Rabs (a s - b s)) (fun s => a s + b s) = l1_dist T x y).
    { apply sumn_ext. intros s _. rewrite X, Y. replace (a s * a s - b s * b s) with ((a s - b s) * (a s + b s)) by ring.
      rewrite Rabs_mult. f_equal. symmetry. apply Rabs_right. pose proof (exp_pos (clip (ep_exponent d lam s) (-700) 700 / 2)). pose proof (exp_pos (clip (ep_exponent d lam' s) (-700) 700 / 2)). unfold a, b. lra. }
    assert (C2 : dot T (fun s => Rabs (a s - b s)) (fun s => Rabs (a s - b s)) <= e * (B + B' + mG)).
    { eapply Rle_trans; [|exact pair_div]. right. apply sumn_ext. intros s _. rewrite <- Rabs_mult. rewrite Rabs_right; [unfold a, b; ring|]. apply Rle_ge, Rle_0_sqr. }
    assert (C3 : dot T (fun s => a s + b s) (fun s => a s + b s) <= 2 * (sumn T x + sumn T y)).
    { rewrite <- sumn_plus, <- sumn_scale. apply sumn_le. intros s _. rewrite X, Y. pose proof (Rle_0_sqr (a s - b s)) as Q. unfold Rsqr in Q. lra. }
    pose proof (gr_sum pn A G m lam eps B N HO) as S1. pose proof (gr_sum pn A G m lam' eps B' N' HO) as S2. fold x y e in S1, S2.
    assert (S3 : sumn T x + sumn T y <= 4) by (unfold e in S1, S2; unfold Rabs in S1, S2; repeat destruct (Rcase_abs _) in S1; repeat destruct (Rcase_abs _) in S2; lra).
    rewrite C1 in C. pose proof (dot_self_nonneg T (fun s => Rabs (a s - b s))). pose proof (dot_self_nonneg T (fun s => a s + b s)).
    set (D := e * (B + B' + mG)) in *. assert (D0 : 0 <= D) by lra.
    assert (L0 : 0 <= l1_dist T x y) by (apply sumn_nonneg; intros; apply Rabs_pos).
    assert (LL : l1_dist T x y * l1_dist T x y <= 9 * D) by nra.
    replace 3 with (sqrt 9) by (replace 9 with (3 * 3) by lra; apply sqrt_square; lra). rewrite <- sqrt_mult by lra.
    rewrite <- (sqrt_square (l1_dist T x y)) by auto. apply sqrt_le_1_alt; auto.
  Qed.

  Lemma pair_normal : l1_dist T (fun s => x s / sumn T x) (fun s => y s / sumn T y) <= 6 * sqrt (e * (B + B' + mG)) / (1 - e).
  Proof.
    pose proof pair_l1 as P. pose proof (gr_sum pn A G m lam eps B N HO) as S1. pose proof (gr_sum pn A G m lam' eps B' N' HO) as S2. fold x y e in S1, S2.
    assert (e1 : 0 <= e < 1) by (unfold e; lra).
    assert (X1 : 1 - e <= sumn T x) by (unfold Rabs in S1; destruct (Rcase_abs _) in S1; lra). assert (Y1 : 1 - e <= sumn T y) by (unfold Rabs in S2; destruct (Rcase_abs _) in S2; lra).
    assert (DS : Rabs (sumn T x - sumn T y) <= l1_dist T x y). { rewrite <- sumn_minus. apply sumn_abs_le. }
    assert (L0 : 0 <= l1_dist T x y) by (apply sumn_nonneg; intros; apply Rabs_pos).
    apply Rle_trans with (2 * l1_dist T x y / sumn T x).
    - assert (K : forall s, Rabs (x s / sumn T x - y s / sumn T y) <= Rabs (x s - y s) / sumn T x + y s * (Rabs (sumn T x - sumn T y) / (sumn T x * sumn T y))).
      { intros s. assert (y0 : 0 < y s) by apply exp_pos.
        replace (x s / sumn T x - y s / sumn T y) with ((x s - y s) / sumn T x + y s * ((sumn T y - sumn T x) / (sumn T x * sumn T y))) by (field; lra).
        eapply Rle_trans; [apply Rabs_triang|]. apply Rplus_le_compat.
        - unfold Rdiv. rewrite Rabs_mult, (Rabs_right (/ _)); [lra|]. apply Rle_ge, Rlt_le, Rinv_0_lt_compat. lra.
        - rewrite Rabs_mult, (Rabs_right (y s)) by lra. apply Rmult_le_compat_l; [lra|]. unfold Rdiv. rewrite Rabs_mult, (Rabs_right (/ _)).
          + rewrite <- Rabs_Ropp. right. do 2 f_equal. ring.
          + apply Rle_ge, Rlt_le, Rinv_0_lt_compat. apply Rmult_lt_0_compat; lra. }
      unfold l1_dist at 1. eapply Rle_trans; [apply sumn_le; intros s _; apply K|]. rewrite sumn_plus, sumn_div, sumn_scale_r. fold (l1_dist T x y).
      replace (sumn T y * (Rabs (sumn T x - sumn T y) / (sumn T x * sumn T y))) with (Rabs (sumn T x - sumn T y) / sumn T x) by (field; lra).
      unfold Rdiv. pose proof (Rinv_0_lt_compat (sumn T x) ltac:(lra)). nra.
    - unfold Rdiv. apply Rmult_le_compat; [lra|apply Rlt_le, Rinv_0_lt_compat; lra|lra|apply Rinv_le_contravar; lra].
  Qed.
End Pair.
Lemma near_sym pn A G m m' lam eps B : near_kkt eps B (ep_dual pn A G m) lam -> near_kkt eps B (ep_dual pn A G m') lam.
Proof. auto. Qed.
