From Verif Require Import RBase ProbRModel ProbRSpec.
Open Scope R_scope.

Lemma normalised_distribution w : w <> [] -> (forall x, In x w -> 0 < x) ->
  positive_distribution (map (fun a => a / rsum w) w).
Proof.
  intros Hne Hpos. pose proof (rsum_pos w Hne Hpos) as Hs. split.
  - intros x Hx. apply in_map_iff in Hx as (a & <- & Ha). apply Rdiv_lt_0_compat; auto.
  - rewrite (rsum_div (rsum w) (fun a => a) w), map_id. field. lra.
Qed.

Lemma exp_decay_raw_length n h : length (exp_decay_raw n h) = Z.to_nat n.
Proof. unfold exp_decay_raw. rewrite map_length, seq_length. reflexivity. Qed.

Lemma exp_decay_raw_nth n h i d : (i < Z.to_nat n)%nat ->
  nth i (exp_decay_raw n h) d = exp (- ln 2 / h * (IZR n - INR (S i))).
Proof.
  intros Hi. unfold exp_decay_raw.
  rewrite nth_indep with (d' := exp (- ln 2 / h * (IZR n - INR 0))) by (rewrite map_length, seq_length; auto).
  rewrite (map_nth (fun k => exp (- ln 2 / h * (IZR n - INR k))) _ 0%nat).
  rewrite seq_nth by auto. reflexivity.
Qed.

Lemma exp_decay_raw_pos n h x : In x (exp_decay_raw n h) -> 0 < x.
Proof. unfold exp_decay_raw. intros H. apply in_map_iff in H as (i & <- & _). apply exp_pos. Qed.

Lemma nth_map_div l s i d : (i < length l)%nat -> nth i (map (fun x => x / s) l) d = nth i l d / s.
Proof.
  intros H. rewrite nth_indep with (d' := (fun x => x / s) d) by (rewrite map_length; auto).
  rewrite (map_nth (fun x => x / s)). reflexivity.
Qed.

Lemma exp_decay_l n h :
  match generate_exp_decay_probabilities n h with
  | Err e => h <= 0 /\ e = ValueError
  | Ok p => 0 < h /\ length p = Z.to_nat n /\
      ((0 < n)%Z -> positive_distribution p) /\
      forall i j, (i <= j < length p)%nat ->
        nth i p 0 = nth j p 0 * Rpower 2 (- (INR (j - i) / h))
  end.
Proof.
  unfold generate_exp_decay_probabilities. destruct (Rleb_spec h 0) as [H|H]; [auto|].
  split; [lra|]. split; [rewrite map_length; apply exp_decay_raw_length|]. split.
  - intros Hn. apply normalised_distribution.
    + intros E. apply (f_equal (@length R)) in E. rewrite exp_decay_raw_length in E. simpl in E. lia.
    + intros x Hx. eapply exp_decay_raw_pos; eauto.
  - intros i j [Hij Hj]. rewrite map_length, exp_decay_raw_length in Hj.
    rewrite !nth_map_div by (rewrite exp_decay_raw_length; lia).
    rewrite !exp_decay_raw_nth by lia.
    unfold Rpower. unfold Rdiv. rewrite !Rmult_assoc, (Rmult_comm (/ _) (exp _)), <- Rmult_assoc.
    rewrite <- (Rmult_assoc (exp _) (exp _)), <- exp_plus. f_equal.
    replace (INR (S i)) with (INR (S j) - INR (j - i)).
    2:{ rewrite minus_INR by lia. rewrite !S_INR. lra. }
    f_equal. field. lra.
Qed.

(** Consequences: monotone in time, and the half-life law itself. *)
Lemma rpower2_le0 x : x <= 0 -> Rpower 2 x <= 1.
Proof.
  intros H. unfold Rpower. rewrite <- exp_0. pose proof ln_lt_2.
  assert (0 < ln 2) by lra.
  destruct (Req_dec x 0) as [->|]; [rewrite Rmult_0_l; lra|].
  left. apply exp_increasing. nra.
Qed.

Lemma exp_decay_mono_l n h p i j : generate_exp_decay_probabilities n h = Ok p ->
  (i <= j < length p)%nat -> nth i p 0 <= nth j p 0.
Proof.
  intros H Hij. pose proof (exp_decay_l n h) as L. rewrite H in L.
  destruct L as (Hh & Hlen & Hd & L). rewrite (L i j Hij).
  assert (0 < nth j p 0).
  { destruct Hd as [Hp _]; [lia|]. apply Hp, nth_In. lia. }
  assert (Rpower 2 (- (INR (j - i) / h)) <= 1).
  { apply rpower2_le0. assert (0 <= INR (j-i) / h). { apply Rmult_le_pos; [apply pos_INR|]. left; apply Rinv_0_lt_compat; lra. } lra. }
  nra.
Qed.

Lemma exp_decay_half_l n h p i j : generate_exp_decay_probabilities n h = Ok p ->
  (i <= j < length p)%nat -> INR (j - i) = h -> nth i p 0 = nth j p 0 / 2.
Proof.
  intros H Hij Hk. pose proof (exp_decay_l n h) as L. rewrite H in L.
  destruct L as (Hh & _ & _ & L). rewrite (L i j Hij), Hk.
  replace (h / h) with 1 by (field; lra).
  rewrite Rpower_Ropp, Rpower_1 by lra. lra.
Qed.

(** Gaussian kernel *)
Lemma kernel_pos h t v : 0 < kernel_weight h t v.
Proof. apply exp_pos. Qed.

Lemma kernel_ok_l x v h x_T out :
  generate_gaussian_kernel_probabilities x v h x_T = Ok out ->
  exists hh t,
    0 < hh /\ (forall h', h = Some h' -> hh = h') /\ (h = None -> hh = silverman_bandwidth x) /\
    (forall t', x_T = Some t' -> t = t') /\ (x_T = None -> t = last x 0) /\
    (let vs := match v with None => x | Some v => v end in
     out = map (fun a => kernel_weight hh t a / rsum (map (kernel_weight hh t) vs)) vs /\
     vs <> []).
Proof.
  unfold generate_gaussian_kernel_probabilities. intros H.
  set (vs := match v with None => x | Some v => v end) in *.
  apply bind_ok in H as (hh & Hh & H).
  destruct (Rleb_spec hh 0) as [|Hp]; [discriminate|].
  apply bind_ok in H as (t & Ht & H).
  destruct (Rleb_spec (rsum (map (kernel_weight hh t) vs)) 0) as [|Hs]; [discriminate|].
  injection H as <-. exists hh, t. split; [lra|].
  split; [intros h' ->; congruence|].
  split. { intros ->. destruct (length x) as [|[|m]]; congruence. }
  split; [intros t' ->; congruence|].
  split. { intros ->. destruct x as [|a l]; [discriminate|]. injection Ht as <-.
           clear. revert a. induction l as [|b l IH]; intros a; [reflexivity|].
           simpl. destruct l; [reflexivity|]. apply IH. }
  cbv zeta. split; [rewrite map_map; reflexivity|].
  intros E. rewrite E in Hs. simpl in Hs. lra.
Qed.

Lemma kernel_dist_l x v h x_T out :
  generate_gaussian_kernel_probabilities x v h x_T = Ok out -> positive_distribution out.
Proof.
  intros H. destruct (kernel_ok_l _ _ _ _ _ H) as (hh & t & Hp & _ & _ & _ & _ & Ho & Hne).
  rewrite Ho. rewrite <- (map_map (kernel_weight hh t) (fun a => a / _)).
  apply normalised_distribution.
  - intros E. apply map_eq_nil in E. auto.
  - intros a Ha. apply in_map_iff in Ha as (b & <- & _). apply kernel_pos.
Qed.

Lemma kernel_weight_mono h t a b : 0 < h -> Rabs (a - t) <= Rabs (b - t) ->
  kernel_weight h t b <= kernel_weight h t a.
Proof.
  intros Hh Hab. unfold kernel_weight.
  assert (Hsq : (a - t) * (a - t) <= (b - t) * (b - t)).
  { exact (Rsqr_le_abs_1 _ _ Hab). }
  assert (Hle : - ((b - t) * (b - t)) / (2 * (h * h)) <= - ((a - t) * (a - t)) / (2 * (h * h))).
  { unfold Rdiv. apply Rmult_le_compat_r; [|lra]. left. apply Rinv_0_lt_compat. nra. }
  destruct Hle as [Hlt|Heq]; [left; apply exp_increasing; exact Hlt|rewrite Heq; lra].
Qed.

Lemma nth_map_len {A} (f : A -> R) l i d d' : (i < length l)%nat -> nth i (map f l) d = f (nth i l d').
Proof.
  intros H. rewrite nth_indep with (d' := f d') by (rewrite map_length; auto). apply map_nth.
Qed.

Lemma kernel_mono_l x v h x_T out t i j :
  generate_gaussian_kernel_probabilities x v h x_T = Ok out ->
  t = match x_T with Some t => t | None => last x 0 end ->
  let vs := match v with None => x | Some v => v end in
  length out = length vs /\
  ((i < length vs)%nat -> (j < length vs)%nat ->
   Rabs (nth i vs 0 - t) <= Rabs (nth j vs 0 - t) -> nth j out 0 <= nth i out 0).
Proof.
  intros H Ht vs. destruct (kernel_ok_l _ _ _ _ _ H) as (hh & t' & Hp & _ & _ & Ht1 & Ht2 & Ho & Hne).
  fold vs in Ho, Hne.
  assert (Et : t' = t).
  { subst t. destruct x_T as [u|]; auto. }
  subst t'. split; [rewrite Ho; apply map_length|]. intros Hi Hj Hab.
  rewrite Ho, !(nth_map_len _ _ _ 0 0) by auto.
  set (s := rsum (map (kernel_weight hh t) vs)).
  assert (Hs : 0 < s).
  { apply rsum_pos; [intros E; apply map_eq_nil in E; auto|].
    intros a Ha. apply in_map_iff in Ha as (b & <- & _). apply kernel_pos. }
  unfold Rdiv. apply Rmult_le_compat_r; [left; apply Rinv_0_lt_compat; auto|].
  apply kernel_weight_mono; auto.
Qed.

(** When the call succeeds: explicit positive bandwidth and something to score. *)
Lemma kernel_total_l x v h t vs : 0 < h -> vs <> [] ->
  vs = match v with None => x | Some v => v end ->
  exists out, generate_gaussian_kernel_probabilities x v (Some h) (Some t) = Ok out.
Proof.
  intros Hh Hne ->. unfold generate_gaussian_kernel_probabilities. simpl.
  destruct (Rleb_spec h 0); [lra|].
  set (vs := match v with None => x | Some v => v end) in *.
  destruct (Rleb_spec (rsum (map (kernel_weight h t) vs)) 0) as [Hs|]; [|eauto].
  exfalso. assert (0 < rsum (map (kernel_weight h t) vs)); [|lra].
  apply rsum_pos; [intros E; apply map_eq_nil in E; auto|].
  intros a Ha. apply in_map_iff in Ha as (b & <- & _). apply kernel_pos.
Qed.

(** * Effective number of scenarios *)
Definition xlnx (x : R) : R := if Rltb 0 x then x * ln x else 0.

Lemma masked_sum p : rsum (map (fun x => x * ln x) (filter (fun x => Rltb 0 x) p)) = rsum (map xlnx p).
Proof.
  induction p as [|x p IH]; [reflexivity|].
  cbn [filter map]. unfold xlnx at 1. destruct (Rltb 0 x); cbn [map rsum fold_right]; unfold rsum in *; rewrite IH; lra.
Qed.

Lemma gibbs_term S p : 0 < S -> 0 <= p -> p - 1 / S <= xlnx p + p * ln S.
Proof.
  intros HS Hp. unfold xlnx. destruct (Rltb_spec 0 p) as [Hpos|Hz].
  - assert (H : ln (1 / (S * p)) <= 1 / (S * p) - 1).
    { apply ln_le_sub1. apply Rdiv_lt_0_compat; nra. }
    assert (E : ln (1 / (S * p)) = - (ln S + ln p)).
    { unfold Rdiv. rewrite Rmult_1_l, ln_Rinv by nra. rewrite ln_mult by lra. reflexivity. }
    rewrite E in H. apply Rmult_le_compat_l with (r := p) in H; [|lra].
    replace (p * (1 / (S * p) - 1)) with (1 / S - p) in H by (field; lra). lra.
  - assert (p = 0) by lra. subst p.
    assert (0 < 1 / S) by (apply Rdiv_lt_0_compat; lra). lra.
Qed.

Lemma gibbs_term_strict S p : 0 < S -> 0 <= p -> p <> 1 / S -> p - 1 / S < xlnx p + p * ln S.
Proof.
  intros HS Hp Hne. unfold xlnx. destruct (Rltb_spec 0 p) as [Hpos|Hz].
  - assert (H : ln (1 / (S * p)) < 1 / (S * p) - 1).
    { apply ln_lt_sub1; [apply Rdiv_lt_0_compat; nra|].
      intros E. apply Hne. apply Rmult_eq_reg_l with (r := S); [|lra].
      replace (S * (1 / S)) with 1 by (field; lra).
      assert (HSp: S * p * (1 / (S * p)) = 1) by (field; lra). rewrite E in HSp. lra. }
    assert (E : ln (1 / (S * p)) = - (ln S + ln p)).
    { unfold Rdiv. rewrite Rmult_1_l, ln_Rinv by nra. rewrite ln_mult by lra. reflexivity. }
    rewrite E in H. apply Rmult_lt_compat_l with (r := p) in H; [|lra].
    replace (p * (1 / (S * p) - 1)) with (1 / S - p) in H by (field; lra). lra.
  - assert (p = 0) by lra. subst p.
    assert (0 < 1 / S) by (apply Rdiv_lt_0_compat; lra). lra.
Qed.

Lemma dist_length p : distribution p -> (0 < length p)%nat.
Proof. intros [_ H]. destruct p; simpl in *; [lra|lia]. Qed.

Lemma dist_le1 p x : distribution p -> In x p -> x <= 1.
Proof. intros [Hn Hs] Hx. rewrite <- Hs. apply rsum_ge_elem; auto. Qed.

Lemma sum_gibbs p S : rsum p = 1 ->
  rsum (map (fun x => xlnx x + x * ln S) p) = rsum (map xlnx p) + ln S.
Proof.
  intros Hs. rewrite rsum_plus, rsum_scale_r, map_id, Hs. lra.
Qed.

Lemma sum_gibbs0 p : rsum p = 1 -> (0 < length p)%nat ->
  rsum (map (fun x => x - 1 / INR (length p)) p) = 0.
Proof.
  intros Hs Hl. rewrite rsum_minus, map_id, rsum_const, Hs. field.
  apply not_0_INR. lia.
Qed.

Lemma xlnx_nonpos x : 0 <= x <= 1 -> xlnx x <= 0.
Proof.
  intros [H0 H1]. unfold xlnx. destruct (Rltb_spec 0 x); [|lra].
  pose proof (ln_le_sub1 x r). nra.
Qed.

Lemma xlnx_neg x : 0 < x < 1 -> xlnx x < 0.
Proof.
  intros [H0 H1]. unfold xlnx. destruct (Rltb_spec 0 x); [|lra].
  pose proof (ln_le_sub1 x r). nra.
Qed.

Lemma ens_exp p : compute_effective_number_scenarios p = exp (- rsum (map xlnx p)).
Proof. unfold compute_effective_number_scenarios. rewrite masked_sum. reflexivity. Qed.

Lemma exp_le x y : x <= y -> exp x <= exp y.
Proof. intros [H| ->]; [left; apply exp_increasing; auto|lra]. Qed.

Lemma ens_bounds_l p : distribution p ->
  1 <= compute_effective_number_scenarios p <= INR (length p).
Proof.
  intros Hd. pose proof (dist_length p Hd) as Hl. destruct Hd as [Hn Hs] eqn:Ed.
  assert (HS : 0 < INR (length p)) by (apply lt_0_INR; lia).
  rewrite ens_exp. split.
  - rewrite <- exp_0. apply exp_le.
    assert (rsum (map xlnx p) <= rsum (map (fun _ => 0) p)).
    { apply rsum_le. intros x Hx. apply xlnx_nonpos. split; auto. apply (dist_le1 p); auto. }
    rewrite rsum_const in H. lra.
  - rewrite <- (exp_ln (INR (length p)) HS) at 1. apply exp_le.
    assert (rsum (map (fun x => x - 1 / INR (length p)) p) <=
            rsum (map (fun x => xlnx x + x * ln (INR (length p))) p)).
    { apply rsum_le. intros x Hx. apply gibbs_term; auto. }
    rewrite sum_gibbs0, sum_gibbs in H by auto. lra.
Qed.

Lemma all_or_ex (P : R -> Prop) (l : list R) : (forall x, P x \/ ~ P x) ->
  (forall x, In x l -> P x) \/ exists x, In x l /\ ~ P x.
Proof.
  intros D. induction l as [|a l [IH|(x & Hx & Hn)]]; [left; simpl; tauto| |right; exists x; simpl; auto].
  destruct (D a) as [Ha|Ha]; [left; simpl; intros x [<-|Hx]; auto|right; exists a; simpl; auto].
Qed.

Lemma ens_max_l p : distribution p ->
  (compute_effective_number_scenarios p = INR (length p) <-> uniform p).
Proof.
  intros Hd. pose proof (dist_length p Hd) as Hl. destruct Hd as [Hn Hs].
  assert (HS : 0 < INR (length p)) by (apply lt_0_INR; lia).
  rewrite ens_exp. split.
  - intros E. unfold uniform.
    destruct (all_or_ex (fun x => x = 1 / INR (length p)) p) as [Ha|(x & Hx & Hne)]; auto.
    { intros x. destruct (Req_dec x (1 / INR (length p))); auto. }
    exfalso.
    assert (rsum (map (fun x => x - 1 / INR (length p)) p) <
            rsum (map (fun x => xlnx x + x * ln (INR (length p))) p)).
    { apply rsum_lt; [intros; apply gibbs_term; auto|]. exists x; split; auto.
      apply gibbs_term_strict; auto. }
    rewrite sum_gibbs0, sum_gibbs in H by auto.
    rewrite <- (exp_ln (INR (length p)) HS) in E at 1. apply exp_inv in E. lra.
  - intros Hu. assert (rsum (map xlnx p) = - ln (INR (length p))).
    { rewrite (rsum_ext xlnx (fun _ => - ln (INR (length p)) / INR (length p))).
      - rewrite rsum_const. field. lra.
      - intros x Hx. rewrite (Hu x Hx). unfold xlnx.
        destruct (Rltb_spec 0 (1 / INR (length p))) as [H|H].
        + unfold Rdiv. rewrite Rmult_1_l, ln_Rinv by lra. lra.
        + assert (0 < 1 / INR (length p)) by (apply Rdiv_lt_0_compat; lra). lra. }
    rewrite H, Ropp_involutive. apply exp_ln; auto.
Qed.

Lemma point_mass_rest p x : distribution p -> In 1 p -> In x p -> x = 0 \/ x = 1.
Proof.
  intros [Hn Hs] H1 Hx. apply in_split in H1 as (a & b & ->).
  rewrite rsum_app, rsum_cons in Hs.
  assert (Ha : forall y, In y a -> 0 <= y) by (intros; apply Hn, in_app_iff; auto).
  assert (Hb : forall y, In y b -> 0 <= y) by (intros; apply Hn, in_app_iff; simpl; auto).
  pose proof (rsum_nonneg a Ha). pose proof (rsum_nonneg b Hb).
  apply in_app_iff in Hx as [Hx|[<-|Hx]]; auto; left.
  - apply (rsum_nonneg_zero a); auto; lra.
  - apply (rsum_nonneg_zero b); auto; lra.
Qed.

Lemma not_point_mass p : distribution p -> ~ In 1 p -> exists x, In x p /\ 0 < x < 1.
Proof.
  intros [Hn Hs] H1. destruct (all_or_ex (fun x => x <= 0) p) as [Ha|(x & Hx & Hne)].
  - intros x. destruct (Rle_dec x 0); auto.
  - exfalso. assert (rsum (map (fun x => x) p) <= rsum (map (fun _ => 0) p)) by (apply rsum_le; auto).
    rewrite map_id, rsum_const in H. lra.
  - exists x. split; auto. split; [lra|].
    assert (x <= 1) by (apply (dist_le1 p); [split; auto|auto]).
    destruct (Req_dec x 1) as [->|]; [tauto|lra].
Qed.

Lemma ens_min_l p : distribution p ->
  (compute_effective_number_scenarios p = 1 <-> point_mass p).
Proof.
  intros Hd. rewrite ens_exp. unfold point_mass. split.
  - intros E. destruct (in_dec Req_EM_T 1 p) as [|Hno]; auto. exfalso.
    destruct (not_point_mass p Hd Hno) as (x & Hx & Hx1).
    assert (rsum (map xlnx p) < rsum (map (fun _ => 0) p)).
    { apply rsum_lt.
      - intros y Hy. apply xlnx_nonpos. split; [apply Hd; auto|apply (dist_le1 p); auto].
      - exists x. split; auto. apply xlnx_neg; auto. }
    rewrite rsum_const in H. rewrite <- exp_0 in E. apply exp_inv in E. lra.
  - intros H1. rewrite (rsum_ext xlnx (fun _ => 0)).
    + rewrite rsum_const, Rmult_0_r, Ropp_0. apply exp_0.
    + intros x Hx. destruct (point_mass_rest p x Hd H1 Hx) as [->| ->]; unfold xlnx.
      * destruct (Rltb_spec 0 0); lra.
      * destruct (Rltb_spec 0 1); rewrite ?ln_1; lra.
Qed.

(** * HHI *)
Lemma hhi_sum_expand p c : rsum (map (fun x => (x - c) * (x - c)) p) =
  rsum (map (fun x => x * x) p) - 2 * c * rsum p + INR (length p) * (c * c).
Proof.
  rewrite <- (map_id p) at 3. rewrite <- rsum_scale, <- rsum_const, <- rsum_minus, <- rsum_plus.
  apply rsum_ext. intros; ring.
Qed.

Lemma hhi_bounds_l p : distribution p ->
  1 <= compute_effective_number_scenarios_hhi p <= INR (length p).
Proof.
  intros Hd. pose proof (dist_length p Hd) as Hl. destruct Hd as [Hn Hs] eqn:Ed.
  assert (HS : 0 < INR (length p)) by (apply lt_0_INR; lia).
  assert (Hlo : 1 / INR (length p) <= rsum (map (fun x => x * x) p)).
  { pose proof (hhi_sum_expand p (1 / INR (length p))) as E.
    assert (0 <= rsum (map (fun x => (x - 1 / INR (length p)) * (x - 1 / INR (length p))) p)).
    { apply rsum_nonneg. intros y Hy. apply in_map_iff in Hy as (x & <- & _).
      exact (Rle_0_sqr _). }
    rewrite E, Hs in H.
    replace (INR (length p) * (1 / INR (length p) * (1 / INR (length p)))) with (1 / INR (length p)) in H
      by (field; lra). lra. }
  assert (0 < 1 / INR (length p)) by (apply Rdiv_lt_0_compat; lra).
  assert (Hhi : rsum (map (fun x => x * x) p) <= 1).
  { rewrite <- Hs. rewrite <- (map_id p) at 2. apply rsum_le. intros x Hx.
    assert (0 <= x) by auto. assert (x <= 1) by (apply (dist_le1 p); [split; auto|auto]). nra. }
  unfold compute_effective_number_scenarios_hhi. split.
  - apply Rmult_le_reg_r with (r := rsum (map (fun x => x * x) p)); [lra|].
    replace (1 / rsum (map (fun x => x * x) p) * rsum (map (fun x => x * x) p)) with 1 by (field; lra). lra.
  - apply Rmult_le_reg_r with (r := rsum (map (fun x => x * x) p)); [lra|].
    replace (1 / rsum (map (fun x => x * x) p) * rsum (map (fun x => x * x) p)) with 1 by (field; lra).
    apply Rmult_le_reg_r with (r := 1 / INR (length p)); [lra|].
    replace (INR (length p) * rsum (map (fun x => x * x) p) * (1 / INR (length p)))
      with (rsum (map (fun x => x * x) p)) by (field; lra). lra.
Qed.

Lemma hhi_max_l p : distribution p ->
  (compute_effective_number_scenarios_hhi p = INR (length p) <-> uniform p).
Proof.
  intros Hd. pose proof (dist_length p Hd) as Hl. pose proof (hhi_bounds_l p Hd) as Hb.
  destruct Hd as [Hn Hs].
  assert (HS : 0 < INR (length p)) by (apply lt_0_INR; lia).
  pose proof (hhi_sum_expand p (1 / INR (length p))) as E. rewrite Hs in E.
  replace (INR (length p) * (1 / INR (length p) * (1 / INR (length p)))) with (1 / INR (length p)) in E
      by (field; lra).
  unfold compute_effective_number_scenarios_hhi in *.
  set (q := rsum (map (fun x => x * x) p)) in *.
  split.
  - intros H.
    assert (Hq : q = 1 / INR (length p)).
    { assert (Hq0 : q <> 0).
      { intros Hz. assert (q * INR (length p) = q * (1 / q)) by (rewrite H; reflexivity).
        rewrite Hz in H. unfold Rdiv in H. rewrite Rinv_0 in H. lra. }
      rewrite <- H. field. auto. }
    intros x Hx.
    assert (Hz : (x - 1 / INR (length p)) * (x - 1 / INR (length p)) = 0).
    { apply (rsum_nonneg_zero (map (fun x => (x - 1 / INR (length p)) * (x - 1 / INR (length p))) p)).
      - intros y Hy. apply in_map_iff in Hy as (z & <- & _). exact (Rle_0_sqr _).
      - rewrite E, Hq. lra.
      - apply in_map_iff. eauto. }
    assert (x - 1 / INR (length p) = 0) by (apply Rsqr_0_uniq; exact Hz). lra.
  - intros Hu. assert (q = 1 / INR (length p)).
    { unfold q. rewrite (rsum_ext _ (fun _ => 1 / INR (length p) * (1 / INR (length p)))).
      - rewrite rsum_const. field. lra.
      - intros x Hx. rewrite (Hu x Hx). reflexivity. }
    rewrite H. field. lra.
Qed.

Lemma hhi_min_l p : distribution p ->
  (compute_effective_number_scenarios_hhi p = 1 <-> point_mass p).
Proof.
  intros Hd. unfold compute_effective_number_scenarios_hhi, point_mass. split.
  - intros E. destruct (in_dec Req_EM_T 1 p) as [|Hno]; auto. exfalso.
    destruct (not_point_mass p Hd Hno) as (x & Hx & Hx1).
    assert (rsum (map (fun x => x * x) p) < rsum (map (fun x => x) p)).
    { apply rsum_lt.
      - intros y Hy. assert (0 <= y) by (apply Hd; auto). assert (y <= 1) by (apply (dist_le1 p); auto). nra.
      - exists x. split; auto. nra. }
    rewrite map_id in H. destruct Hd as [_ Hs]. rewrite Hs in H.
    set (q := rsum (map (fun x => x * x) p)) in *.
    destruct (Req_dec q 0) as [Hz|Hz].
    + rewrite Hz in E. unfold Rdiv in E. rewrite Rinv_0 in E. lra.
    + assert (q * (1 / q) = 1) by (field; auto). rewrite E in H0. lra.
  - intros H1. assert (rsum (map (fun x => x * x) p) = 1).
    { rewrite (rsum_ext _ (fun x => x)).
      - rewrite map_id. apply Hd.
      - intros x Hx. destruct (point_mass_rest p x Hd H1 Hx) as [->| ->]; lra. }
    rewrite H. lra.
Qed.
