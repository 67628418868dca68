(** Rounding-error analysis of probability vectors. *)
From Flocq Require Import Core.
From Verif Require Import RBase FpLib FpModel FpSpec FpProofs FaModel FaProofs FaProofs3 FwModel FwSpec.
Open Scope R_scope.

Lemma ur2_small : ur * ur <= 1 / 1000000000000000 * (1 / 1000000000000000).
Proof. pose proof ur_small. pose proof ur_pos. apply Rmult_le_compat; lra. Qed.
Lemma lit_bounds x : 0 <= x <= 1 -> Rabs (rnd x - x) <= x / 1000000000000000 + 1 / 1000000000000000000000000000000.
Proof.
  intros Hx. pose proof (rnd_abs x) as H. rewrite (Rabs_pos_eq x) in H by lra. pose proof ur_small. pose proof ur_pos. pose proof eta_ur. pose proof ur2_small. nra.
Qed.
Lemma close_tol : 10009 / 1000000000 <= fadd (rnd (1 / 100000000)) (fmul (rnd (1 / 100000)) 1) <= 10011 / 1000000000.
Proof.
  unfold fmul. rewrite Rmult_1_r, (rnd_id _ (rnd_isf _)).
  pose proof (lit_bounds (1 / 100000000) ltac:(lra)) as A. pose proof (lit_bounds (1 / 100000) ltac:(lra)) as B. apply Rabs_bd in A, B.
  pose proof (lit_bounds (rnd (1 / 100000000) + rnd (1 / 100000)) ltac:(lra)) as C. apply Rabs_bd in C. unfold fadd. lra.
Qed.
Lemma close_true t : isf t -> Rabs (t - 1) <= 10008 / 1000000000 -> f_close1 t = true.
Proof.
  intros Ft H. unfold f_close1. apply Rleb_true. pose proof close_tol. pose proof (fadd_abs t (- (1)) Ft (isf_opp _ isf_1)) as K. change (fadd t (- (1))) with (fsub t 1) in K. change (t + - (1)) with (t - 1) in K.
  pose proof ur_small. pose proof ur_pos. pose proof (Rabs_pos (t - 1)).
  replace (fsub t 1) with ((fsub t 1 - (t - 1)) + (t - 1)) by ring. eapply Rle_trans; [apply Rabs_triang|]. nra.
Qed.
Lemma close_inv t : isf t -> f_close1 t = true -> Rabs (t - 1) <= 10012 / 1000000000.
Proof.
  intros Ft H. unfold f_close1 in H. destruct (Rleb_spec (Rabs (fsub t 1)) (fadd (rnd (1 / 100000000)) (fmul (rnd (1 / 100000)) 1))) as [L|]; [|discriminate].
  pose proof close_tol. pose proof (fadd_abs t (- (1)) Ft (isf_opp _ isf_1)) as K. change (fadd t (- (1))) with (fsub t 1) in K. change (t + - (1)) with (t - 1) in K.
  pose proof ur_small. pose proof ur_pos. pose proof (Rabs_pos (t - 1)).
  assert (Rabs (t - 1) <= Rabs (fsub t 1) + Rabs (fsub t 1 - (t - 1))). { replace (t - 1) with (fsub t 1 - (fsub t 1 - (t - 1))) at 1 by ring. eapply Rle_trans; [apply Rabs_triang|]. rewrite Rabs_Ropp. lra. }
  nra.
Qed.

(** Any order of summation of non-negative floats. *)
Lemma abs_nonneg l : (forall x, In x l -> 0 <= x /\ isf x) -> rsum (map Rabs l) = rsum l.
Proof. induction l as [|x l IH]; intros H; [reflexivity|]. cbn [map]. rewrite !rsum_cons, IH by (intros; apply H; right; assumption). rewrite Rabs_pos_eq by (apply H; left; reflexivity). reflexivity. Qed.
Lemma sum_nonneg_err npsum l : sums npsum -> (forall x, In x l -> 0 <= x /\ isf x) -> INR (length l) * ur <= 1 / 2 ->
  Rabs (npsum l - rsum l) <= 2 * INR (length l) * ur * rsum l /\ isf (npsum l) /\ 0 <= rsum l.
Proof.
  intros Hs Hl Hn. assert (F : forall x, In x l -> isf x) by (intros; apply Hl; assumption). destruct (fsum_err _ _ (Hs l F) F) as (He & Fi). rewrite abs_nonneg in He by exact Hl.
  assert (S0 : 0 <= rsum l) by (apply rsum_nonneg; intros; apply Hl; assumption). split; [|split; assumption]. eapply Rle_trans; [exact He|]. apply Rmult_le_compat_r; [exact S0|].
  eapply Rle_trans; [apply gam_mono with (m := length l); lia|apply gam_lin; exact Hn].
Qed.

Lemma sizeable_64 n : sizeable n -> INR n * ur <= 1 / 64.
Proof. unfold sizeable. lra. Qed.

Lemma fdiv_sum_low t q : 0 < t -> (forall x, In x q -> 0 <= x /\ isf x) -> (1 - ur) * (rsum q * / t) - INR (length q) * eta <= rsum (map (fun x => fdiv x t) q).
Proof.
  intros Ht. assert (Hit : 0 < / t) by (apply Rinv_0_lt_compat; exact Ht). pose proof ur_pos as Hu. induction q as [|x q IH]; intros Hq; [simpl; lra|]. cbn [map length]. rewrite !rsum_cons, S_INR. specialize (IH (fun z Hz => Hq z (or_intror Hz))).
  assert (Hx : 0 <= x) by (apply Hq; left; reflexivity). assert (0 <= x / t) by (apply Rmult_le_pos; lra). pose proof (rnd_abs (x / t)) as K. rewrite (Rabs_pos_eq (x / t)) in K by assumption. apply Rabs_bd in K. change (fdiv x t) with (rnd (x / t)). unfold Rdiv in *. lra.
Qed.
Lemma div_total npsum l : sums npsum -> (forall x, In x l -> 0 <= x /\ isf x) -> 0 < npsum l -> sizeable (length l) ->
  prob_floats (length l) (norm_tol (length l)) (map (fun x => fdiv x (npsum l)) l).
Proof.
  intros Hs Hl Ht Hn. split; [apply map_length|]. split.
  - intros x Hx. apply in_map_iff in Hx as (y & <- & Hy). split; [|apply rnd_isf]. apply rnd_ge0. destruct (Hl y Hy). apply Rmult_le_pos; [lra|]. left. apply Rinv_0_lt_compat. exact Ht.
  - pose proof (normalised_sum npsum l Hs Hl Ht (sizeable_64 _ Hn)) as Up. pose proof (fdiv_sum_low (npsum l) l Ht Hl) as Lo.
    destruct (sum_nonneg_err npsum l Hs Hl) as (He & _ & S0); [unfold sizeable in Hn; lra|]. apply Rabs_bd in He. unfold norm_tol. pose proof ur_pos. pose proof eta_pos. pose proof eta_ur. pose proof (pos_INR (length l)) as HN0. unfold sizeable in Hn. set (n := INR (length l)) in *. set (t := npsum l) in *. set (s := rsum l) in *.
    assert (Q : 1 - 2 * n * ur <= s * / t). { apply Rmult_le_reg_r with t; [exact Ht|]. replace (s * / t * t) with s by (field; lra).
      assert (t <= (1 + 2 * n * ur) * s) by lra. apply Rle_trans with ((1 - 2 * n * ur) * ((1 + 2 * n * ur) * s)); [apply Rmult_le_compat_l; lra|]. assert (0 <= (n * ur) * (n * ur) * s) by (apply Rmult_le_pos; [apply Rle_0_sqr|exact S0]). lra. }
    pose proof ur_small. assert (n * eta <= ur) by nra. assert (0 <= n * ur) by nra. apply Rabs_le. split; [|lra]. assert ((1 - ur) * (1 - 2 * n * ur) <= (1 - ur) * (s * / t)) by (apply Rmult_le_compat_l; lra). nra.
Qed.
Lemma sum_of_prob npsum n tol l : sums npsum -> prob_floats n tol l -> sizeable n -> tol <= 1 -> Rabs (npsum l - 1) <= tol + 4 * INR n * ur /\ isf (npsum l).
Proof.
  intros Hs (Hl & Hp & Ht) Hn H1. subst n. destruct (sum_nonneg_err npsum l Hs Hp) as (He & Fi & S0); [unfold sizeable in Hn; lra|]. split; [|exact Fi].
  replace (npsum l - 1) with ((npsum l - rsum l) + (rsum l - 1)) by ring. eapply Rle_trans; [apply Rabs_triang|]. pose proof ur_pos. pose proof (pos_INR (length l)). apply Rabs_bd in Ht. assert (0 <= INR (length l) * ur) by nra.
  assert (2 * INR (length l) * ur * rsum l <= 2 * INR (length l) * ur * 2) by (apply Rmult_le_compat_l; lra). assert (Rabs (rsum l - 1) <= tol) by (apply Rabs_le; lra). lra.
Qed.
Lemma norm_tol_small n : sizeable n -> norm_tol n <= 4 / 100000000.
Proof. unfold sizeable, norm_tol. intros. pose proof ur_small. pose proof ur_pos. lra. Qed.
Lemma close_of_prob npsum n l : sums npsum -> prob_floats n (norm_tol n) l -> sizeable n -> f_close1 (npsum l) = true /\ 0 < npsum l.
Proof.
  intros Hs Hp Hn. pose proof (norm_tol_small n Hn). destruct (sum_of_prob npsum n _ l Hs Hp Hn) as (A & F); [lra|]. unfold sizeable in Hn.
  split; [apply close_true; [exact F|lra]|]. apply Rabs_bd in A. lra.
Qed.
Lemma no_neg l : (forall x, In x l -> 0 <= x /\ isf x) -> existsb (fun x => Rltb x 0) l = false.
Proof. induction l as [|x l IH]; intros H; [reflexivity|]. cbn [existsb]. rewrite IH by (intros; apply H; right; assumption). rewrite orb_false_r. apply Rltb_false. apply H. left; reflexivity. Qed.
Lemma prob_ne n tol l : prob_floats n tol l -> tol < 1 -> l <> [].
Proof. intros (_ & _ & H) Ht ->. simpl in H. apply Rabs_bd in H. lra. Qed.

(** Vectors that sum to one up to rounding are returned unchanged by every later check. *)
Lemma accepted npsum n l : sums npsum -> prob_floats n (norm_tol n) l -> sizeable n ->
  f_normalize npsum false l = Ok l /\ f_scenario_probs npsum l = Ok l.
Proof.
  intros Hs Hp Hn. destruct (close_of_prob npsum n l Hs Hp Hn) as (C & P). pose proof (norm_tol_small n Hn). pose proof (prob_ne _ _ _ Hp ltac:(lra)) as NE. destruct Hp as (_ & Hp & _).
  unfold f_normalize, f_scenario_probs. rewrite (no_neg l Hp), C. assert (Rleb (npsum l) 0 = false) as -> by (apply Rleb_false; exact P). destruct l; [contradiction|]. split; reflexivity.
Qed.
Lemma accepted_strict npsum n l : sums npsum -> prob_floats n (norm_tol n) l -> sizeable n -> (forall x, In x l -> 0 < x) ->
  f_normalize npsum true l = Ok l.
Proof.
  intros Hs Hp Hn Hpos. destruct (close_of_prob npsum n l Hs Hp Hn) as (C & P). pose proof (norm_tol_small n Hn). pose proof (prob_ne _ _ _ Hp ltac:(lra)) as NE.
  assert (E : existsb (fun x => Rleb x 0) l = false). { clear -Hpos. induction l as [|x l IH]; [reflexivity|]. cbn [existsb]. rewrite IH by (intros; apply Hpos; right; assumption). rewrite orb_false_r. apply Rleb_false. apply Hpos. left; reflexivity. }
  unfold f_normalize. cbv iota. rewrite E, C. assert (Rleb (npsum l) 0 = false) as -> by (apply Rleb_false; exact P). destruct l; [contradiction|]. reflexivity.
Qed.
Lemma strict_zero npsum l x : In x l -> x <= 0 -> f_normalize npsum true l = Err ValueError.
Proof.
  intros Hx H0. assert (E : existsb (fun x => Rleb x 0) l = true). { apply existsb_exists. exists x. split; [exact Hx|]. apply Rleb_true. exact H0. }
  unfold f_normalize. cbv iota. rewrite E. destruct l; reflexivity.
Qed.

Lemma rsum_repeat x n : rsum (repeat x n) = INR n * x.
Proof. induction n; [simpl; lra|]. cbn [repeat]. rewrite rsum_cons, IHn, S_INR. lra. Qed.
Lemma uniform_ok n out : sizeable n -> f_uniform n = Ok out -> prob_floats n (norm_tol n) out /\ (forall x, In x out -> 0 < x).
Proof.
  intros Hn H. unfold f_uniform in H. destruct n as [|k]; [discriminate|]. set (n := S k) in *. assert (E : out = repeat (fdiv 1 (INR n)) n) by (apply (f_equal (fun r => match r with Ok y => y | Err _ => [] end)) in H; symmetry; exact H). clear H. subst out.
  assert (P : 1 <= INR n) by (unfold n; rewrite S_INR; pose proof (pos_INR k); lra). unfold sizeable in Hn. pose proof ur_pos. pose proof ur_small. pose proof eta_pos. pose proof eta_ur.
  assert (I0 : 0 < 1 / INR n) by (apply Rdiv_lt_0_compat; lra). assert (I1 : INR n * (1 / INR n) = 1) by (field; lra).
  pose proof (rnd_abs (1 / INR n)) as K. rewrite (Rabs_pos_eq (1 / INR n)) in K by lra. change (rnd (1 / INR n)) with (fdiv 1 (INR n)) in K. apply Rabs_bd in K.
  assert (eta <= ur * (1 / INR n)). { assert (ur * INR n * (1 / INR n) = ur) by (rewrite Rmult_assoc, I1; ring). assert (ur * ur = ur * ((INR n * ur) * (1 / INR n))) by (rewrite <- H3 at 2; ring). assert (INR n * ur * (1 / INR n) <= 1 * (1 / INR n)) by (apply Rmult_le_compat_r; lra). nra. }
  assert (Pos : 0 < fdiv 1 (INR n)) by nra.
  split; [split; [apply repeat_length|]; split|].
  - intros x Hx. apply repeat_spec in Hx. subst x. split; [lra|apply rnd_isf].
  - rewrite rsum_repeat. unfold norm_tol. apply Rabs_le.
    assert (INR n * fdiv 1 (INR n) <= INR n * (1 / INR n + 2 * (ur * (1 / INR n)))) by (apply Rmult_le_compat_l; lra).
    assert (INR n * (1 / INR n - 2 * (ur * (1 / INR n))) <= INR n * fdiv 1 (INR n)) by (apply Rmult_le_compat_l; lra). nra.
  - intros x Hx. apply repeat_spec in Hx. subst x. exact Pos.
Qed.
